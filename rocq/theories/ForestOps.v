(** * The operations on a forest: refine, coarsen, partition *)

From Coq Require Import ZArith List Bool Lia Arith ZifyBool Sorting.Sorted.
From Verif Require Import Quad Spec Interval QuadLemmas Adapt AdaptSpec RefineLemmas Tiles CoarsenFix Partition PartLemmas PartTrees PartRecv PartFinal PartShip Comm CommLemmas OwnerLemmas Cut CutLemmas PropertiesCut PropertiesPartition Weighted WeightedLemmas PropertiesWeighted Forest ForestSpec ForestLemmas ForestAdapt ForestPart.
Import ListNotations.
Open Scope Z_scope.

Lemma app_inj_pre {A} : forall (a a' b b' : list A), a ++ b = a' ++ b' -> length a = length a' -> a = a' /\ b = b'.
Proof.
  induction a as [|x a IH]; intros [|y a'] b b' E L; try discriminate L; [auto|]. cbn [app] in E. injection E as -> E. cbn [length] in L. destruct (IH a' b b' E) as (-> & ->); [lia|auto].
Qed.
Lemma Forall2_flip {A B} (P : A -> B -> Prop) l l' : Forall2 P l l' -> Forall2 (fun y x => P x y) l' l.
Proof. induction 1; constructor; auto. Qed.

Section FO.
  Variable d : dim.
  Variables (St D : Type).
  Variable T : Z.
  Hypothesis HT : 0 < T.
  Local Notation lvs := (lvs St D).
  Local Notation proc := (proc St D).
  Local Notation leaf := (quad * D)%type.
  Local Notation all_leaves := (all_leaves St D T).
  Local Notation shape := (shape St D T).

  Lemma shape_trees (p p' : proc) : (forall t, 0 <= t < T -> map fst (lvs p t) = map fst (lvs p' t)) -> shape p = shape p'.
  Proof.
    unfold ForestSpec.shape, rank_leaves. intros H.
    assert (G : forall n s, 0 <= s -> s + Z.of_nat n <= T -> map (fun x : Z * leaf => (fst x, fst (snd x))) (loc_from s n (lvs p)) = map (fun x : Z * leaf => (fst x, fst (snd x))) (loc_from s n (lvs p'))).
    { induction n as [|n IH]; intros s Hs Hn; cbn [loc_from]; [reflexivity|]. rewrite !map_app, IH by lia. f_equal. rewrite !map_map. cbn [fst snd].
      pose proof (f_equal (map (pair s)) (H s ltac:(lia))) as E. rewrite !map_map in E. exact E. }
    apply G; lia.
  Qed.

  Definition grows (l l' : list quad) : Prop := (length l <= length l')%nat /\ (length l = length l' -> l = l').

  Lemma grows_loc (f g : Z -> list leaf) : (forall t, 0 <= t < T -> grows (map fst (f t)) (map fst (g t))) -> forall n s, 0 <= s -> s + Z.of_nat n <= T ->
    (length (loc_from s n f) <= length (loc_from s n g))%nat /\
    (length (loc_from s n f) = length (loc_from s n g) -> forall t, s <= t < s + Z.of_nat n -> map fst (f t) = map fst (g t)).
  Proof.
    intros H. induction n as [|n IH]; intros s Hs Hn; cbn [loc_from]; [split; [lia|intros; lia]|]. rewrite !app_length, !map_length.
    destruct (H s ltac:(lia)) as (G1 & G2). rewrite !map_length in G1, G2. destruct (IH (s + 1) ltac:(lia) ltac:(lia)) as (I1 & I2). split; [lia|].
    intros E t Ht. destruct (Z.eq_dec t s) as [->|N]; [apply G2; lia|apply I2; lia].
  Qed.

  Lemma grows_all : forall (ps ps' : list proc), Forall2 (fun p p' => forall t, 0 <= t < T -> grows (map fst (lvs p t)) (map fst (lvs p' t))) ps ps' ->
    (length (all_leaves ps) <= length (all_leaves ps'))%nat /\ (length (all_leaves ps) = length (all_leaves ps') -> map shape ps = map shape ps').
  Proof.
    induction 1 as [|p p' ps ps' H _ IH]; [split; auto|]. unfold ForestSpec.all_leaves in *. cbn [flat_map map]. rewrite !app_length.
    destruct (grows_loc (lvs p) (lvs p') H (Z.to_nat T) 0 ltac:(lia) ltac:(lia)) as (G1 & G2). destruct IH as (I1 & I2). split; [lia|].
    intros E. rewrite I2 by lia. f_equal. apply shape_trees. intros t Ht. apply G2; lia.
  Qed.

  Lemma shape_all (ps ps' : list proc) : map shape ps = map shape ps' -> zlen (all_leaves ps) = zlen (all_leaves ps').
  Proof.
    revert ps'. induction ps as [|p ps IH]; intros [|p' ps'] E; try discriminate E; [reflexivity|]. cbn [map] in E. injection E as E1 E2. unfold ForestSpec.all_leaves in *. cbn [flat_map]. rewrite !zlen_app, (IH _ E2). f_equal.
    unfold ForestSpec.shape, rank_leaves in E1. apply (f_equal (@length _)) in E1. rewrite !map_length in E1. unfold zlen. rewrite E1. reflexivity.
  Qed.

  Lemma Forall2_imp {A B} (P Q : A -> B -> Prop) l l' : (forall x y, In x l -> P x y -> Q x y) -> Forall2 P l l' -> Forall2 Q l l'.
  Proof. intros H F. induction F as [|x y l l' Hp _ IH]; constructor; [apply H; [left; reflexivity|exact Hp]|apply IH; intros; apply H; [right; assumption|assumption]]. Qed.

  Lemma forest_tiled F : forest_ok d St D T F -> forall p, In p (f_procs _ _ F) -> proc_ok d St D T p /\ forall t, 0 <= t < T -> tiled d D (lvs p t).
  Proof.
    intros (_ & FP & _ & TL & _) p I. rewrite Forall_forall in FP. split; [auto|]. intros t Ht.
    pose proof (proc_tiled d St D (f_procs _ _ F) t) as H. specialize (H (ex_intro _ 0 (ex_intro _ (TREE d) (TL t Ht)))). rewrite Forall_forall in H. auto.
  Qed.

  Lemma adapt_forest (R : list quad -> list quad -> Prop) F ps' : forest_ok d St D T F -> Forall2 (adapted_by d St D T R) (f_procs _ _ F) ps' ->
    (forall a b l l', tiles d a b l -> tiles d a b l' -> R l l' -> grows l l') \/ (forall a b l l', tiles d a b l -> tiles d a b l' -> R l l' -> grows l' l) ->
    exists F', recount St D F ps' = Some F' /\ forest_ok d St D T F' /\ f_procs _ _ F' = ps' /\ f_gfp _ _ F' = f_gfp _ _ F /\
      (f_rev _ _ F' = f_rev _ _ F \/ f_rev _ _ F' = f_rev _ _ F + 1) /\
      (f_rev _ _ F' = f_rev _ _ F <-> map shape ps' = map shape (f_procs _ _ F)).
  Proof.
    intros OK A GR. destruct (adapt_ok d St D T HT F ps' OK) as (F' & E & OK' & EP & ER).
    { eapply Forall2_imp; [|exact A]. intros p p' _ H. apply H. }
    exists F'. split; [exact E|]. split; [exact OK'|]. split; [exact EP|]. split.
    { unfold recount in E. destruct (zget _ _); [|discriminate]. injection E as <-. reflexivity. }
    pose proof (forest_tiled F OK) as FT.
    assert (K : zlen (all_leaves (f_procs _ _ F)) = zlen (all_leaves ps') -> map shape (f_procs _ _ F) = map shape ps').
    { unfold zlen. intros EZ. apply Nat2Z.inj in EZ. destruct GR as [GR|GR].
      - apply (grows_all (f_procs _ _ F) ps'); [|exact EZ]. eapply Forall2_imp; [|exact A]. intros p p' I (AD & H) t Ht. destruct (FT p I) as (_ & TD). destruct (TD t Ht) as (a & b & Ta).
        apply (GR a b); [exact Ta| |apply H]. destruct AD as (_ & _ & _ & AD). apply AD; assumption.
      - symmetry. apply (grows_all ps' (f_procs _ _ F)); [|symmetry; exact EZ]. apply Forall2_flip. eapply Forall2_imp; [|exact A]. intros p p' I (AD & H) t Ht. destruct (FT p I) as (_ & TD). destruct (TD t Ht) as (a & b & Ta).
        apply (GR a b); [exact Ta| |apply H]. destruct AD as (_ & _ & _ & AD). apply AD; assumption. }
    destruct (zlen (all_leaves (f_procs _ _ F)) =? zlen (all_leaves ps')) eqn:C.
    - split; [left; exact ER|]. split; [intros _; symmetry; apply K; lia|intros _; exact ER].
    - split; [right; exact ER|]. split; [lia|]. intros ES. apply shape_all in ES. lia.
  Qed.

  (** ** refine *)
  Lemma refine_ext_exists init_fn refine_fn replace_fn recursive al F : al <= 29 -> forest_ok d St D T F ->
    exists n0, forall fuel, (n0 <= fuel)%nat -> exists F', refine_ext d St D T init_fn refine_fn replace_fn recursive al fuel F = Some F'.
  Proof.
    intros HA OK. pose proof (forest_tiled F OK) as FT.
    assert (X : forall ps, (forall p, In p ps -> proc_ok d St D T p /\ forall t, 0 <= t < T -> tiled d D (lvs p t)) ->
      exists n0, forall fuel, (n0 <= fuel)%nat -> exists ps', all_some (map (refine_proc d St D T init_fn refine_fn replace_fn recursive al fuel) ps) = Some ps').
    { induction ps as [|p ps IH]; intros H; [exists 0%nat; intros; exists []; reflexivity|].
      destruct (IH (fun q I => H q (or_intror I))) as (n1 & H1). destruct (H p (or_introl eq_refl)) as (HP & HQ).
      destruct (refine_proc_exists d St D T init_fn refine_fn replace_fn recursive al HA p HP HQ) as (n2 & H2).
      exists (Nat.max n1 n2). intros fuel Hf. destruct (H1 fuel ltac:(lia)) as (ps' & E1). destruct (H2 fuel ltac:(lia)) as (p' & E2). exists (p' :: ps'). cbn [map all_some]. rewrite E2, E1. reflexivity. }
    destruct (X _ FT) as (n0 & H). exists n0. intros fuel Hf. destruct (H fuel Hf) as (ps' & E). unfold refine_ext. rewrite E.
    destruct (adapt_ok d St D T HT F ps' OK) as (F' & E' & _); [|exists F'; exact E'].
    apply all_some_inv in E. eapply Forall2_imp; [|exact E]. intros p p' I E1. destruct (FT p I) as (HP & HQ). apply (refine_proc_adapted d St D T HT _ _ _ _ _ HA _ _ _ HP HQ E1).
  Qed.

  Lemma refine_ext_ok init_fn refine_fn replace_fn recursive al fuel F F' : al <= 29 -> forest_ok d St D T F ->
    refine_ext d St D T init_fn refine_fn replace_fn recursive al fuel F = Some F' ->
    forest_ok d St D T F' /\ f_gfp _ _ F' = f_gfp _ _ F /\ Forall2 (adapted_by d St D T (finer d)) (f_procs _ _ F) (f_procs _ _ F') /\
    (f_rev _ _ F' = f_rev _ _ F \/ f_rev _ _ F' = f_rev _ _ F + 1) /\
    (f_rev _ _ F' = f_rev _ _ F <-> map shape (f_procs _ _ F') = map shape (f_procs _ _ F)).
  Proof.
    intros HA OK E. unfold refine_ext in E. destruct (all_some _) as [ps'|] eqn:EA; [|discriminate]. apply all_some_inv in EA.
    assert (A : Forall2 (adapted_by d St D T (finer d)) (f_procs _ _ F) ps').
    { eapply Forall2_imp; [|exact EA]. intros p p' I E1. destruct (forest_tiled F OK p I) as (HP & HQ). apply (refine_proc_adapted d St D T HT _ _ _ _ _ HA _ _ _ HP HQ E1). }
    destruct (adapt_forest (finer d) F ps' OK A) as (F'' & E' & O1 & O2 & O3 & O4 & O5).
    { left. intros a b l l' T1 T2 H. eapply finer_length; eauto. }
    rewrite E in E'. injection E' as <-. rewrite O2. auto.
  Qed.

  (** ** coarsen *)
  Lemma coarsen_ext_ok init_fn coarsen_fn replace_fn recursive orphans F : forest_ok d St D T F ->
    exists F', coarsen_ext d St D T init_fn coarsen_fn replace_fn recursive orphans F = Some F' /\
    forest_ok d St D T F' /\ f_gfp _ _ F' = f_gfp _ _ F /\ Forall2 (adapted_by d St D T (merges d)) (f_procs _ _ F) (f_procs _ _ F') /\
    (f_rev _ _ F' = f_rev _ _ F \/ f_rev _ _ F' = f_rev _ _ F + 1) /\
    (f_rev _ _ F' = f_rev _ _ F <-> map shape (f_procs _ _ F') = map shape (f_procs _ _ F)).
  Proof.
    intros OK. pose proof (forest_tiled F OK) as FT. unfold coarsen_ext.
    destruct (all_some_map (coarsen_proc d St D T init_fn coarsen_fn replace_fn recursive orphans) (f_procs _ _ F)) as (ps' & EA).
    { apply Forall_forall. intros p I. destruct (FT p I) as (HP & HQ). destruct (coarsen_proc_adapted d St D T HT init_fn coarsen_fn replace_fn recursive orphans p HP HQ) as (p' & E & _). exists p'. exact E. }
    rewrite EA. apply all_some_inv in EA.
    assert (A : Forall2 (adapted_by d St D T (merges d)) (f_procs _ _ F) ps').
    { eapply Forall2_imp; [|exact EA]. intros p p' I E1. destruct (FT p I) as (HP & HQ). destruct (coarsen_proc_adapted d St D T HT init_fn coarsen_fn replace_fn recursive orphans p HP HQ) as (p'' & E & AD). rewrite E1 in E. injection E as <-. exact AD. }
    destruct (adapt_forest (merges d) F ps' OK A) as (F' & E' & O1 & O2 & O3 & O4 & O5).
    { right. intros a b l l' _ _ H. destruct (merges_length d l l' H) as (H1 & H2). split; assumption. }
    exists F'. rewrite O2. auto 10.
  Qed.

  (** ** partition *)
  Lemma rank_num p : proc_ok d St D T p -> pr_num St D p = zlen (rank_leaves St D T p).
  Proof. intros (_ & H & _). exact H. Qed.

  Lemma same_counts : forall ps ps', Forall (proc_ok d St D T) ps -> Forall (proc_ok d St D T) ps' -> all_leaves ps' = all_leaves ps ->
    map (pr_num St D) ps' = map (pr_num St D) ps -> map (rank_leaves St D T) ps' = map (rank_leaves St D T) ps.
  Proof.
    induction ps as [|p ps IH]; intros [|p' ps'] H1 H2 EA EN; try discriminate EN; [reflexivity|]. cbn [map] in *. injection EN as EN1 EN2. inversion H1; inversion H2; subst.
    unfold ForestSpec.all_leaves in *. cbn [flat_map] in EA. fold (rank_leaves St D T p) in EA. fold (rank_leaves St D T p') in EA.
    rewrite !rank_num in EN1 by assumption. apply app_inj_pre in EA; [|unfold zlen in EN1; lia]. destruct EA as (-> & EA). f_equal. apply IH; auto.
  Qed.
  Lemma rank_counts : forall ps ps', Forall (proc_ok d St D T) ps -> Forall (proc_ok d St D T) ps' ->
    map (rank_leaves St D T) ps' = map (rank_leaves St D T) ps -> map (pr_num St D) ps' = map (pr_num St D) ps.
  Proof.
    induction ps as [|p ps IH]; intros [|p' ps'] H1 H2 E; try discriminate E; [reflexivity|]. cbn [map] in *. injection E as E1 E2. inversion H1; inversion H2; subst. rewrite !rank_num by assumption. rewrite E1. f_equal. auto.
  Qed.

  Lemma num_nonneg ps : Forall (proc_ok d St D T) ps -> Forall (Z.le 0) (map (pr_num St D) ps).
  Proof. induction 1 as [|p ps H _ IH]; constructor; [rewrite rank_num by exact H; unfold zlen; lia|exact IH]. Qed.

  Lemma num_total ps : Forall (proc_ok d St D T) ps -> PartShip.total (map (pr_num St D) ps) = zlen (all_leaves ps).
  Proof. intros H. rewrite (num_counts d St D T) by exact H. rewrite glob_total, all_glob. reflexivity. Qed.

  Definition given_rev (x : option (forest St D * Z)) : option (forest St D * Z) :=
    match x with
    | None => None
    | Some (F', shipped) => Some (mkforest St D (f_procs _ _ F') (f_gfq _ _ F') (f_gfp _ _ F') (f_gnum _ _ F') (if shipped =? 0 then f_rev _ _ F' else f_rev _ _ F' + 1), shipped)
    end.

  Lemma given_rev_ok F counts : T <= 2 ^ 31 - 1 -> forest_ok d St D T F ->
    length counts = length (f_procs _ _ F) -> Forall (Z.le 0) counts -> PartShip.total counts = zlen (all_leaves (f_procs _ _ F)) ->
    exists F' shipped, given_rev (given d St D T F counts) = Some (F', shipped) /\
      forest_ok d St D T F' /\ all_leaves (f_procs _ _ F') = all_leaves (f_procs _ _ F) /\ map (pr_num St D) (f_procs _ _ F') = counts /\
      map (pr_s St D) (f_procs _ _ F') = map (pr_s St D) (f_procs _ _ F) /\
      (f_rev _ _ F' = f_rev _ _ F \/ f_rev _ _ F' = f_rev _ _ F + 1) /\
      (f_rev _ _ F' = f_rev _ _ F <-> map (rank_leaves St D T) (f_procs _ _ F') = map (rank_leaves St D T) (f_procs _ _ F)) /\
      (shipped = 0 <-> f_rev _ _ F' = f_rev _ _ F).
  Proof.
    intros HM OK HL HC HTOT. destruct (given_ok d St D T HT F counts HM OK HL HC HTOT) as (F' & E & OK' & EA & EN & ES & ER). pose proof OK as (_ & FP & _). pose proof OK' as (_ & FP' & _).
    rewrite E. cbn [given_rev]. eexists. eexists. split; [reflexivity|]. cbn [f_procs f_rev]. split; [exact OK'|]. split; [exact EA|]. split; [exact EN|]. split; [exact ES|]. rewrite ER.
    set (sh := differ _ _).
    assert (K : sh = 0 <-> map (rank_leaves St D T) (f_procs _ _ F') = map (rank_leaves St D T) (f_procs _ _ F)).
    { unfold sh. pose proof (num_nonneg _ FP) as NN. rewrite differ_zero.
      - split.
        + intros EO. apply same_counts; auto. rewrite EN. symmetry. apply (owners_inj _ _ 0); auto. rewrite map_length. lia.
        + intros EO. apply rank_counts in EO; auto. rewrite <- EO, EN. reflexivity.
      - apply Nat2Z.inj. fold (zlen (owners 0 (map (pr_num St D) (f_procs St D F)))). fold (zlen (owners 0 counts)). rewrite !owners_length by assumption. rewrite HTOT. apply num_total. exact FP. }
    split; [destruct (sh =? 0); auto|]. split; [|destruct (sh =? 0) eqn:C; lia].
    rewrite <- K. destruct (sh =? 0) eqn:C; lia.
  Qed.

  Lemma weights_length w (p : proc) : proc_ok d St D T p -> length (weights St D w p) = length (rank_leaves St D T p).
  Proof.
    intros OK. unfold weights, rank_leaves.
    assert (G : forall n s, length (flat_map (fun t => map (fun lf : leaf => w (pr_s St D p) t (fst lf) (snd lf)) (t_leaves D (ft D (pr_trees St D p t)))) (zseq s n)) = length (loc_from s n (lvs p))).
    { induction n as [|n IH]; intros s; cbn [zseq flat_map loc_from]; [reflexivity|]. rewrite !app_length, IH, !map_length. reflexivity. }
    rewrite G. pose proof OK as (RK & _).
    assert (EM : forall t, ~ pr_first _ _ p <= t <= pr_last _ _ p -> lvs p t = []).
    { intros t Ht. destruct RK as [(_ & _ & H)|(_ & _ & H)]; [apply H|]. destruct (lvs p t) eqn:E; [reflexivity|]. exfalso. apply Ht. apply H. cbn [rk_of k_trees]. fold (lvs p t). rewrite E. discriminate. }
    pose proof (local_cases _ _ _ _ p OK) as LC. unfold trips. destruct LC as [(E1 & E2)|(H1 & H2)].
    - rewrite E1, E2. cbn. rewrite loc_from_nil; [reflexivity|]. intros t Ht. apply EM. lia.
    - replace (Z.to_nat T) with (Z.to_nat (pr_first _ _ p) + (Z.to_nat (pr_last _ _ p - pr_first _ _ p + 1) + Z.to_nat (T - pr_last _ _ p - 1)))%nat by lia. rewrite !loc_from_app, !app_length.
      rewrite (loc_from_nil (lvs p) (Z.to_nat (pr_first _ _ p)) 0) by (intros; apply EM; lia). rewrite (loc_from_nil (lvs p) (Z.to_nat (T - pr_last _ _ p - 1))) by (intros; apply EM; lia). cbn [length].
      replace (0 + Z.of_nat (Z.to_nat (pr_first _ _ p))) with (pr_first _ _ p) by lia. lia.
  Qed.

  Lemma weights_concat w : forall ps, Forall (proc_ok d St D T) ps -> zlen (concat (map (weights St D w) ps)) = zlen (all_leaves ps).
  Proof.
    induction 1 as [|p ps H _ IH]; [reflexivity|]. unfold ForestSpec.all_leaves in *. cbn [map concat flat_map]. rewrite !zlen_app, IH. f_equal. unfold zlen. rewrite weights_length by exact H. reflexivity.
  Qed.

  Variable prec : Z.
  Hypothesis PREC : 53 <= prec <= 64.

  Definition weights_ok (w : option (St -> Z -> quad -> D -> Z)) (F : forest St D) : Prop :=
    match w with
    | None => True
    | Some w => Forall (Forall (Z.le 0)) (map (weights St D w) (f_procs _ _ F)) /\ wsum (concat (map (weights St D w) (f_procs _ _ F))) < 2 ^ 63
    end.

  Lemma partition_ext_ok w F : T <= 2 ^ 31 - 1 -> forest_ok d St D T F -> zlen (f_procs _ _ F) < 2 ^ 31 -> f_gnum _ _ F < 2 ^ 63 -> weights_ok w F ->
    exists F' shipped, partition_ext d St D T prec w F = Some (F', shipped) /\
      forest_ok d St D T F' /\ all_leaves (f_procs _ _ F') = all_leaves (f_procs _ _ F) /\
      map (pr_s St D) (f_procs _ _ F') = map (pr_s St D) (f_procs _ _ F) /\
      (f_rev _ _ F' = f_rev _ _ F \/ f_rev _ _ F' = f_rev _ _ F + 1) /\
      (f_rev _ _ F' = f_rev _ _ F <-> map (rank_leaves St D T) (f_procs _ _ F') = map (rank_leaves St D T) (f_procs _ _ F)) /\
      (shipped = 0 <-> f_rev _ _ F' = f_rev _ _ F) /\
      (w = None -> forall k, (k <= length (f_procs _ _ F))%nat -> pre (map (pr_num St D) (f_procs _ _ F')) k = partition_cut prec (f_gnum _ _ F) (Z.of_nat k) (zlen (f_procs _ _ F))).
  Proof.
    intros HM OK HP HN HW. pose proof OK as (NE & FP & _ & _ & GN & _). set (P := zlen (f_procs _ _ F)) in *.
    assert (P1 : 1 <= P) by (unfold P, zlen; destruct (f_procs _ _ F); [contradiction|cbn [length]; lia]).
    assert (N0 : 0 <= f_gnum _ _ F) by (rewrite GN; unfold zlen; lia).
    destruct (equal_counts_ok prec PREC (f_gnum _ _ F) P ltac:(lia) ltac:(lia)) as (C1 & C2 & C3 & C4).
    assert (SAME : forall F1, F1 = F -> exists F' shipped, Some (F1, 0) = Some (F', shipped) /\
      forest_ok d St D T F' /\ all_leaves (f_procs _ _ F') = all_leaves (f_procs _ _ F) /\
      map (pr_s St D) (f_procs _ _ F') = map (pr_s St D) (f_procs _ _ F) /\
      (f_rev _ _ F' = f_rev _ _ F \/ f_rev _ _ F' = f_rev _ _ F + 1) /\
      (f_rev _ _ F' = f_rev _ _ F <-> map (rank_leaves St D T) (f_procs _ _ F') = map (rank_leaves St D T) (f_procs _ _ F)) /\
      (shipped = 0 <-> f_rev _ _ F' = f_rev _ _ F)).
    { intros F1 ->. exists F, 0. split; [reflexivity|]. split; [exact OK|]. split; [reflexivity|]. split; [reflexivity|]. split; [left; reflexivity|]. split; split; reflexivity. }
    unfold partition_ext. fold P. destruct (P =? 1) eqn:CP.
    { destruct (SAME F eq_refl) as (F' & sh & E & H). exists F', sh. split; [exact E|]. injection E as <- <-. destruct H as (H1 & H2 & H3 & H4 & H5 & H6). do 6 (split; [assumption|]). intros _ k Hk.
      assert (P = 1) as E1 by lia. rewrite E1 in *. destruct (C16_cut_monotone prec (f_gnum _ _ F) 1 PREC ltac:(lia) ltac:(lia)) as (M0 & M1 & _). fold P in Hk. assert (length (f_procs _ _ F) = 1%nat) by (unfold P, zlen in E1; lia).
      destruct k as [|[|k]]; [|clear Hk|lia]; [cbn [Z.of_nat]; rewrite M0; destruct (map (pr_num St D) (f_procs St D F)); reflexivity|].
      change (Z.of_nat 1) with 1. rewrite M1, GN, <- num_total by exact FP. unfold PartShip.total. rewrite map_length, H. reflexivity. }
    destruct w as [w|].
    - destruct HW as (W1 & W2). assert (LW : zlen (map (weights St D w) (f_procs _ _ F)) = P) by (unfold P, zlen; rewrite map_length; reflexivity).
      destruct (Z_le_gt_dec (wsum (concat (map (weights St D w) (f_procs St D F)))) 0) as [C|C].
      + assert (W0 : 0 <= wsum (concat (map (weights St D w) (f_procs St D F)))).
        { clear - W1. induction W1 as [|x l H _ IH]; [cbn; lia|]. cbn [concat]. rewrite wsum_app. assert (0 <= wsum x) by (clear - H; induction H as [|y l Hy _ IH]; [cbn; lia|unfold wsum in *; cbn [fold_right] in *; lia]). lia. }
        rewrite C17_zero_weights by lia. destruct (SAME F eq_refl) as (F' & sh & E & H). exists F', sh. split; [exact E|]. destruct H as (H1 & H2 & H3 & H4 & H5 & H6). do 6 (split; [assumption|]). discriminate.
      + destruct (C17_weighted_counts prec (map (weights St D w) (f_procs _ _ F)) PREC W1 ltac:(lia) ltac:(lia)) as (counts & EC & L & FC & SC & _). rewrite EC.
        destruct (given_rev_ok F counts HM OK) as (F' & sh & E & H1 & H2 & _ & H3 & H4 & H5 & H6).
        * unfold zlen in *. fold P in L. lia.
        * exact FC.
        * unfold PartShip.total. rewrite <- pre_wsum. rewrite firstn_all, SC. apply weights_concat. exact FP.
        * exists F', sh. split; [exact E|]. do 6 (split; [assumption|]). discriminate.
    - destruct (given_rev_ok F (equal_counts prec (f_gnum St D F) P (Z.to_nat P) 0 0) HM OK) as (F' & sh & E & H1 & H2 & HC & H3 & H4 & H5 & H6).
      + rewrite C1. unfold P, zlen. lia.
      + exact C2.
      + rewrite C3. exact GN.
      + exists F', sh. split; [exact E|]. do 6 (split; [assumption|]). intros _ k Hk. rewrite HC. apply C4. unfold P, zlen. lia.
  Qed.
End FO.
