(** * The wrap adaptation of a forest *)

From Coq Require Import ZArith List Bool Lia Arith ZifyBool.
From Verif Require Import Quad Spec Interval QuadLemmas DescLemmas Tree TreeLemmas SearchLocal Search Adapt AdaptSpec ListLemmas RefineLemmas RefineProps CoarsenProps PropertiesRefine PropertiesCoarsen Tiles CoarsenFix Partition PartLemmas PartTrees PartRecv PartGlue PartFinal PartShip Comm CommLemmas OwnerLemmas.
From Verif Require Import Weighted Forest ForestSpec ForestLemmas ForestAdapt ForestOps RankWalk Checksum Wrap WrapLemmas WrapSqueeze WrapRank PropertiesValid.
Import ListNotations.
Open Scope Z_scope.

Lemma Forall2_nth {A B} (R : A -> B -> Prop) l l' : Forall2 R l l' <-> length l = length l' /\ forall k x y, nth_error l k = Some x -> nth_error l' k = Some y -> R x y.
Proof.
  split.
  - induction 1 as [|x y l l' H _ (L & IH)]; [split; [reflexivity|intros [|k]; discriminate]|]. split; [cbn; congruence|]. intros [|k] a b; cbn; [congruence|apply IH].
  - revert l'. induction l as [|x l IH]; intros [|y l'] (L & H); try discriminate; constructor; [apply (H 0%nat); reflexivity|]. apply IH. split; [cbn in L; congruence|]. intros k. apply (H (S k)).
Qed.
Lemma nth_map_some {A B} (f : A -> B) l k y : nth_error (map f l) k = Some y -> exists x, nth_error l k = Some x /\ y = f x.
Proof. rewrite nth_error_map. destruct (nth_error l k); [intros E; injection E as <-; eauto|discriminate]. Qed.

Section WF.
  Variable d : dim.
  Variables (delay : Z) (affect : bool).
  Variable T : Z.
  Hypothesis HT : 0 < T.
  Local Notation leaf := (quad * Z)%type.
  Local Notation prc := (proc wrap Z).
  Local Notation frst := (forest wrap Z).
  Local Notation rank_leaves := (rank_leaves wrap Z T).
  Local Notation shape := (shape wrap Z T).

  Lemma map_fst_combine {A B} (l : list A) (l' : list B) : length l' = length l -> map fst (combine l l') = l.
  Proof. revert l'. induction l as [|x l IH]; intros [|y l'] E; try discriminate; [reflexivity|]. cbn [combine map fst]. rewrite IH by (cbn in E; congruence). reflexivity. Qed.

  Lemma mark_unique p t q v v' m m' : (forall t, 0 <= t < T -> tiled d Z (lvs wrap Z p t)) -> length (w_flags (pr_s _ _ p)) = length (rank_leaves p) ->
    has_mark T p t q v m -> has_mark T p t q v' m' -> v = v' /\ m = m'.
  Proof.
    intros TD LE H1 H2. assert (Ht : 0 <= t < T) by (destruct H1 as (i & E & _); apply nth_error_In, (rank_in T) in E; [apply E|exact HT]).
    rewrite has_mark_in in H1, H2. rewrite <- of_tree_in in H1, H2. destruct (TD t Ht) as (a & b & TL).
    assert (M : map fst (of_tree t (combine (rank_leaves p) (w_flags (pr_s _ _ p)))) = lvs wrap Z p t) by (rewrite of_tree_fst, map_fst_combine by exact LE; apply (rank_tree T HT p t Ht)).
    rewrite <- M, map_map in TL. pose proof (nodup_map_inj _ _ _ _ (tiles_nodup _ _ _ _ TL) H1 H2 eq_refl) as X. injection X as -> ->. auto.
  Qed.
  Lemma leaf_overlap p t q r : (forall t, 0 <= t < T -> tiled d Z (lvs wrap Z p t)) -> In (t, q) (shape p) -> In (t, r) (shape p) -> qpos d q < qend d r -> qpos d r < qend d q -> q = r.
  Proof.
    intros TD Iq Ir O1 O2. unfold ForestSpec.shape in *. apply in_map_iff in Iq, Ir. destruct Iq as ((t1 & (q1 & v1)) & E1 & I1), Ir as ((t2 & (q2 & v2)) & E2 & I2). cbn in E1, E2. injection E1 as -> ->. injection E2 as -> ->.
    apply (rank_in T) in I1, I2; try exact HT. destruct I1 as (Ht & I1), I2 as (_ & I2). destruct (TD t Ht) as (a & b & TL). apply (in_map fst) in I1, I2. exact (tiles_disjoint d _ _ _ q r TL I1 I2 O1 O2).
  Qed.
  Lemma has_mark_shape p t q v m : has_mark T p t q v m -> In (t, q) (shape p).
  Proof. intros (i & E & _). apply nth_error_In in E. unfold ForestSpec.shape. apply in_map_iff. exists (t, (q, v)). auto. Qed.

  (** what p4est_wrap_adapt does to one rank before the balance *)
  Definition adapted_rank (p p' : prc) : Prop :=
    w_flags (pr_s _ _ p') = repeat 0 (length (rank_leaves p)) /\ w_temp (pr_s _ _ p') = [] /\ w_refines (pr_s _ _ p') = 0 /\ w_bad (pr_s _ _ p') = false /\
    forall t r w, In (t, (r, w)) (rank_leaves p') <->
      (merged d delay T p t r /\ w = newv delay affect) \/
      (exists q v, has_mark T p t q v 1 /\ ql q < 29 /\ In r (childrenv d q) /\ w = 0) \/
      (exists v m, has_mark T p t r v m /\ ~ (m = 1 /\ ql r < 29) /\ w = tick delay v /\ forall q, merged d delay T p t q -> ~ In r (childrenv d q)).

  Lemma recount_procs (F : frst) ps F' : recount wrap Z F ps = Some F' -> f_procs _ _ F' = ps /\ f_rev _ _ F' = if f_gnum _ _ F =? f_gnum _ _ F' then f_rev _ _ F else f_rev _ _ F + 1.
  Proof. unfold recount. destruct (zget _ _); [|discriminate]. intros E. injection E as <-. split; reflexivity. Qed.

  Lemma refined_same (l : list ((Z * leaf) * Z)) : (forall t q v, In ((t, (q, v)), 1) l -> ~ ql q < 29) -> length (flat_map (refined1 d delay) l) = length l.
  Proof.
    induction l as [|((t, (q, v)), m) l IH]; intros H; [reflexivity|]. cbn [flat_map length]. rewrite app_length, IH by (intros ? ? ? I; eapply H; right; exact I).
    cbn [refined1]. destruct ((m =? 1) && (ql q <? 29)) eqn:E; [|reflexivity]. exfalso. apply andb_prop in E. destruct E as (E1 & E2). apply Z.eqb_eq in E1. subst m. apply (H t q v (or_introl eq_refl)). lia.
  Qed.

  Lemma shape_length ps ps' : map shape ps = map shape ps' -> zlen (all_leaves wrap Z T ps) = zlen (all_leaves wrap Z T ps').
  Proof.
    revert ps'. induction ps as [|p ps IH]; intros [|p' ps'] E; try discriminate; [reflexivity|]. cbn [map] in E. injection E as E1 E2. apply IH in E2. unfold all_leaves in *. cbn [flat_map]. unfold zlen in *. rewrite !app_length, !Nat2Z.inj_add, E2. f_equal.
    apply (f_equal (@length _)) in E1. unfold ForestSpec.shape in E1. rewrite !map_length in E1. unfold ForestSpec.rank_leaves in E1. lia.
  Qed.

  Lemma adapt_marks_any F fuel F' ch : forest_ok d wrap Z T F -> Forall (marks_ok T) (f_procs _ _ F) -> adapt_marks d delay affect T fuel F = Some (F', ch) ->
      forest_ok d wrap Z T F' /\ f_gfp _ _ F' = f_gfp _ _ F /\ Forall2 adapted_rank (f_procs _ _ F) (f_procs _ _ F') /\
      (ch = false <-> map shape (f_procs _ _ F') = map shape (f_procs _ _ F)).
  Proof.
    intros OK MO EA. pose proof (on_states_ok d T (start_refine d) F OK) as OK0. unfold adapt_marks in EA.
    destruct (refine_ext _ _ _ _ _ _ _ _ _ _ _) as [F1|] eqn:E1; [|discriminate EA].
    destruct (refine_ext_ok d wrap Z T HT _ _ _ _ (-1) _ _ _ ltac:(lia) OK0 E1) as (OK1 & GP1 & _ & _ & RV1).
    pose proof (on_states_ok d T start_coarsen F1 OK1) as OK1'.
    destruct (coarsen_ext_ok d wrap Z T HT init_null (coarsen_callback d delay) (if delay =? 0 then None else Some (replace_on_coarsen affect)) false true (on_states start_coarsen F1) OK1') as (F2 & E2 & OK2 & GP2 & _ & _ & RV2).
    rewrite E2 in EA. injection EA as <- <-. split; [apply on_states_ok, OK2|]. split; [cbn [on_states f_gfp]; rewrite GP2; exact GP1|].
    unfold refine_ext in E1. rewrite on_states_procs, map_map in E1. destruct (all_some _) as [ps1|] eqn:A1; [|discriminate E1]. apply all_some_inv in A1. apply recount_procs in E1. destruct E1 as (P1 & R1). 
    unfold coarsen_ext in E2. rewrite on_states_procs, map_map in E2. destruct (all_some (map _ (f_procs wrap Z F1))) as [ps2|] eqn:A2; [|discriminate E2]. apply all_some_inv in A2. apply recount_procs in E2. destruct E2 as (P2 & R2).
    subst ps1 ps2. rewrite Forall2_nth in A1, A2. destruct A1 as (N1 & A1), A2 as (N2 & A2).
    rewrite on_states_procs, map_map in RV1, RV2. rewrite on_states_procs, map_map. change (fun x => shape (with_s _ x)) with shape in *.
    pose proof (forest_tiled d wrap Z T F OK) as TF. pose proof (forest_tiled d wrap Z T F1 OK1) as TF1.
    assert (EACH : forall k p, nth_error (f_procs _ _ F) k = Some p -> exists p1 p2, nth_error (f_procs _ _ F1) k = Some p1 /\ nth_error (f_procs _ _ F2) k = Some p2 /\ marks_ok T p /\ (forall t, 0 <= t < T -> tiled d Z (lvs wrap Z p t)) /\
       rank_leaves p1 = map fst (flat_map (refined1 d delay) (combine (rank_leaves p) (w_flags (pr_s _ _ p)))) /\ adapted_rank p (with_s (end_coarsen p2) p2)).
    { intros k p Ek. assert (Hk : (k < length (f_procs _ _ F))%nat) by (apply nth_error_Some; congruence).
      destruct (nth_error (f_procs _ _ F1) k) as [p1|] eqn:Ek1; [|exfalso; apply nth_error_None in Ek1; lia]. destruct (nth_error (f_procs _ _ F2) k) as [p2|] eqn:Ek2; [|exfalso; apply nth_error_None in Ek2; lia].
      exists p1, p2. split; [reflexivity|]. split; [reflexivity|]. rewrite Forall_forall in MO. pose proof (MO p (nth_error_In _ _ Ek)) as M. destruct (TF p (nth_error_In _ _ Ek)) as (O & TD). destruct (TF1 p1 (nth_error_In _ _ Ek1)) as (O1 & TD1).
      destruct (rank_adapt d delay affect T HT fuel p p1 p2 O TD M (A1 _ _ _ Ek Ek1) O1 TD1 (A2 _ _ _ Ek1 Ek2)) as (B1 & B2 & B3 & B4).
      split; [exact M|]. split; [exact TD|]. split; [exact B3|]. split; [exact B1|]. split; [reflexivity|]. split; [reflexivity|]. split; [exact B2|exact B4]. }
    split.
    - apply Forall2_nth. rewrite map_length. split; [lia|]. intros k p p' Ek Ek'. apply nth_map_some in Ek'. destruct Ek' as (p2 & Ek2 & ->). destruct (EACH k p Ek) as (p1 & p2' & _ & Ek2' & _ & _ & _ & AR). rewrite Ek2 in Ek2'. injection Ek2' as <-. exact AR.
    - split.
      + intros C. apply orb_false_elim in C. destruct C as (C1 & C2). apply negb_false_iff in C1, C2. change (f_gnum wrap Z (on_states (start_refine d) F)) with (f_gnum wrap Z F) in R1. change (f_gnum wrap Z (on_states start_coarsen F1)) with (f_gnum wrap Z F1) in R2. rewrite C1 in R1. rewrite C2 in R2. apply RV1 in R1. apply RV2 in R2. rewrite R2. exact R1.
      + intros SH.
        assert (NR : forall k p t q v, nth_error (f_procs _ _ F) k = Some p -> has_mark T p t q v 1 -> ~ ql q < 29).
        { intros k p t q v Ek HM L. destruct (EACH k p Ek) as (p1 & p2 & _ & Ek2 & (MO1 & _) & TD & _ & (_ & _ & _ & _ & AR)). pose proof (has_mark_shape _ _ _ _ _ HM) as I.
          assert (SP : shape p2 = shape p) by (assert (X : nth_error (map shape (f_procs _ _ F2)) k = nth_error (map shape (f_procs _ _ F)) k) by (rewrite SH; reflexivity); rewrite !nth_error_map, Ek, Ek2 in X; cbn in X; congruence).
          assert (WQ : wf d q). { apply in_map_iff in I. destruct I as ((t1 & (q1 & v1)) & E1 & I1). cbn in E1. injection E1 as -> ->. apply (rank_in T HT) in I1. destruct I1 as (Ht & I1). destruct (TD t Ht) as (a & b & TL). apply tiles_wf in TL. rewrite Forall_forall in TL. apply TL. apply (in_map fst) in I1. exact I1. }
          pose proof I as I2. rewrite <- SP in I2. unfold ForestSpec.shape in I2. apply in_map_iff in I2. destruct I2 as ((t1 & (q1 & w)) & E1 & I1). cbn in E1. injection E1 as -> ->. apply AR in I1.
          assert (NEST : forall x y, wf d x -> ql x < 29 -> In y (childrenv d x) -> In (t, x) (shape p) -> In (t, y) (shape p) -> False).
          { intros x y Wx Lx Iy Ix Iyp. apply childrenv_in in Iy. destruct Iy as (i & Hi & ->). destruct (child_wf d x i Wx Lx Hi) as (Wc & Lc & _). pose proof (tiles_bounds d _ _ _ _ (tiles_children d x Wx Lx) (in_childrenv d x i Hi)) as B. pose proof (size_pos d _ Wc) as SPC.
            assert (X : x = child d x i) by (apply (leaf_overlap p t); auto; lia). rewrite X in Lc at 2. lia. }
          destruct I1 as [((W & L' & F') & _)|[(q0 & v0 & HM0 & L0 & IC & _)|(v0 & m0 & HM0 & N & _)]].
          - destruct (childrenv d q) as [|c cs] eqn:EC; [destruct d; discriminate|]. destruct (F' c (or_introl eq_refl)) as (v1 & HM1 & _). apply (NEST q c WQ L); [rewrite EC; left; reflexivity|exact I|eapply has_mark_shape; eauto].
          - assert (W0 : wf d q0). { pose proof (has_mark_shape _ _ _ _ _ HM0) as I0. apply in_map_iff in I0. destruct I0 as ((t1 & (q1 & v1)) & E1 & I1). cbn in E1. injection E1 as -> ->. apply (rank_in T HT) in I1. destruct I1 as (Ht & I1). destruct (TD t Ht) as (a & b & TL). apply tiles_wf in TL. rewrite Forall_forall in TL. apply TL. apply (in_map fst) in I1. exact I1. }
            apply (NEST q0 q W0 L0 IC); [eapply has_mark_shape; eauto|exact I].
          - destruct (mark_unique p t q v v0 1 m0 TD MO1 HM HM0) as (_ & <-). apply N. auto. }
        assert (G1 : f_gnum _ _ F1 = f_gnum _ _ F).
        { destruct OK as (_ & _ & _ & _ & GN & _). destruct OK1 as (_ & _ & _ & _ & GN1 & _). rewrite GN, GN1. clear - EACH NR N1 HT.
          assert (X : forall k p p1, nth_error (f_procs _ _ F) k = Some p -> nth_error (f_procs _ _ F1) k = Some p1 -> length (rank_leaves p1) = length (rank_leaves p)).
          { intros k p p1 Ek Ek1. destruct (EACH k p Ek) as (p1' & p2 & Ek1' & _ & (ML & _) & _ & RL & _). rewrite Ek1 in Ek1'. injection Ek1' as <-. rewrite RL, map_length, refined_same, combine_length; [lia|]. intros t q v I. eapply NR; [exact Ek|]. apply has_mark_in. exact I. }
          unfold all_leaves, zlen. f_equal. clear EACH NR. revert N1 X. generalize (f_procs _ _ F1) as l1. induction (f_procs _ _ F) as [|p ps IH]; intros [|p1 ps1] N1 X; try discriminate; [reflexivity|]. cbn [flat_map]. rewrite !app_length. f_equal.
          - apply (X 0%nat p p1); reflexivity.
          - apply IH; [cbn in N1; congruence|]. intros k. apply (X (S k)). }
        assert (G2 : f_gnum _ _ F2 = f_gnum _ _ F) by (destruct OK as (_ & _ & _ & _ & GN & _); destruct OK2 as (_ & _ & _ & _ & GN2 & _); rewrite GN, GN2; apply shape_length, SH).
        rewrite G1, G2, Z.eqb_refl. reflexivity.
  Qed.
  Lemma adapt_marks_ok F : forest_ok d wrap Z T F -> Forall (marks_ok T) (f_procs _ _ F) ->
    exists n0, forall fuel, (n0 <= fuel)%nat -> exists F' ch, adapt_marks d delay affect T fuel F = Some (F', ch).
  Proof.
    intros OK MO. pose proof (on_states_ok d T (start_refine d) F OK) as OK0.
    destruct (refine_ext_exists d wrap Z T HT init_null (refine_callback d delay) (Some (replace_on_refine d delay)) false (-1) (on_states (start_refine d) F) ltac:(lia) OK0) as (n0 & H).
    exists n0. intros fuel Hf. destruct (H fuel Hf) as (F1 & E1). unfold adapt_marks. rewrite E1.
    destruct (refine_ext_ok d wrap Z T HT _ _ _ _ (-1) _ _ _ ltac:(lia) OK0 E1) as (OK1 & _).
    destruct (coarsen_ext_ok d wrap Z T HT init_null (coarsen_callback d delay) (if delay =? 0 then None else Some (replace_on_coarsen affect)) false true (on_states start_coarsen F1) (on_states_ok d T start_coarsen F1 OK1)) as (F2 & E2 & _).
    rewrite E2. eexists. eexists. reflexivity.
  Qed.
End WF.
