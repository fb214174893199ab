(** * The wrap adaptation on one rank *)

From Coq Require Import ZArith List Bool Lia Arith ZifyBool.
From Verif Require Import Quad Spec Interval QuadLemmas DescLemmas Tree TreeLemmas SearchLocal Search Adapt AdaptSpec ListLemmas RefineLemmas RefineProps CoarsenProps PropertiesRefine PropertiesCoarsen Tiles CoarsenFix Partition PartLemmas PartTrees PartRecv PartGlue PartFinal PartShip Comm CommLemmas OwnerLemmas.
From Verif Require Import Weighted Forest ForestSpec ForestLemmas ForestAdapt ForestOps RankWalk Checksum Wrap WrapLemmas WrapSqueeze PropertiesValid.
Import ListNotations.
Open Scope Z_scope.

(** the same rank or forest with another state *)
Definition with_s {St D} (s : St) (p : proc St D) : proc St D := mkproc _ _ s (pr_first _ _ p) (pr_last _ _ p) (pr_num _ _ p) (pr_trees _ _ p).

Lemma with_s_ok d D St T (s : St) (p : proc St D) : proc_ok d St D T p -> proc_ok d St D T (with_s s p).
Proof. intros H. exact H. Qed.
Lemma all_leaves_states {D} T f (ps : list (proc wrap D)) : all_leaves wrap D T (map (fun p => with_s (f p) p) ps) = all_leaves wrap D T ps.
Proof. unfold all_leaves. induction ps as [|p ps IH]; [reflexivity|]. cbn [map flat_map]. rewrite IH. reflexivity. Qed.
Lemma on_states_procs f F : f_procs wrap Z (on_states f F) = map (fun p => with_s (f p) p) (f_procs wrap Z F).
Proof. reflexivity. Qed.
Lemma on_states_ok d T f F : forest_ok d wrap Z T F -> forest_ok d wrap Z T (on_states f F).
Proof.
  intros (A & B & C & D & E & G & H). unfold forest_ok. rewrite on_states_procs, all_leaves_states.
  split; [destruct (f_procs wrap Z F); [contradiction|discriminate]|]. split; [|split; [exact C|split; [|split; [exact E|split]]]].
  - clear - B. induction B; constructor; auto.
  - intros t Ht. specialize (D t Ht). replace (flat_map _ (map _ _)) with (flat_map (fun p => lvs wrap Z p t) (f_procs wrap Z F)); [exact D|].
    clear. induction (f_procs wrap Z F) as [|p ps IH]; [reflexivity|]. cbn [map flat_map]. rewrite IH. reflexivity.
  - rewrite map_map. exact G.
  - rewrite map_map. exact H.
Qed.

Section WR.
  Variable d : dim.
  Variables (delay : Z) (affect : bool).
  Variable T : Z.
  Hypothesis HT : 0 < T.
  Local Notation leaf := (quad * Z)%type.
  Local Notation prc := (proc wrap Z).
  Local Notation CH := (childrenn d).
  Local Notation rank_leaves := (rank_leaves wrap Z T).

  (** the flags of a rank belong to its leaves *)
  Definition marks_ok (p : prc) : Prop :=
    let s := pr_s _ _ p in
    length (w_flags s) = length (rank_leaves p) /\ Forall mark_ok (w_flags s) /\ w_refines s = Z.of_nat (count1 (w_flags s)) /\ w_bad s = false.

  (** leaf q of tree t has user_int v and mark m *)
  Definition has_mark (p : prc) (t : Z) (q : quad) (v m : Z) : Prop :=
    exists i, nth_error (rank_leaves p) i = Some (t, (q, v)) /\ nth_error (w_flags (pr_s _ _ p)) i = Some m.

  Lemma combine_nth {A B} : forall (l : list A) (l' : list B) x y, In (x, y) (combine l l') <-> exists i, nth_error l i = Some x /\ nth_error l' i = Some y.
  Proof.
    induction l as [|a l IH]; intros l' x y; [cbn; split; [tauto|intros (i & E & _); destruct i; discriminate]|].
    destruct l' as [|b l']; [cbn; split; [tauto|intros (i & _ & E); destruct i; discriminate]|]. cbn [combine In]. rewrite IH. split.
    - intros [E|(i & E1 & E2)]; [exists 0%nat; cbn; apply pair_equal_spec in E; destruct E as (-> & ->); auto|exists (S i); auto].
    - intros ([|i] & E1 & E2); cbn in E1, E2; [left; congruence|right; exists i; auto].
  Qed.
  Lemma has_mark_in p t q v m : has_mark p t q v m <-> In ((t, (q, v)), m) (combine (rank_leaves p) (w_flags (pr_s _ _ p))).
  Proof. symmetry. apply combine_nth. Qed.

  Definition merged (p : prc) (t : Z) (q : quad) : Prop :=
    wf d q /\ ql q < 29 /\ forall c, In c (childrenv d q) -> exists v, has_mark p t c v 2 /\ too_recent delay (tick delay v) = false.

  Lemma of_tree_in G t x m : In (x, m) (of_tree t G) <-> In ((t, x), m) G.
  Proof.
    unfold of_tree. rewrite in_map_iff. split.
    - intros (((t', x'), m') & E & I). apply filter_In in I. destruct I as (I & ET). cbn in E, ET. apply Z.eqb_eq in ET. subst t'. unfold untag in E. cbn in E. apply pair_equal_spec in E. destruct E as (-> & ->). exact I.
    - intros I. exists ((t, x), m). split; [reflexivity|]. apply filter_In. split; [exact I|apply Z.eqb_refl].
  Qed.
  Lemma of_tree_fst G t : map fst (of_tree t G) = ofl t (map fst G).
  Proof. unfold of_tree, ofl. induction G as [|((t', x), m) G IH]; [reflexivity|]. cbn [filter map fst]. destruct (t' =? t); cbn [map]; rewrite IH; reflexivity. Qed.
  Lemma rank_tree (p : prc) t : 0 <= t < T -> ofl t (rank_leaves p) = lvs wrap Z p t.
  Proof. intros Ht. pose proof (ofl_all wrap Z T HT [p] t Ht) as H. cbn [all_leaves flat_map] in H. rewrite !app_nil_r in H. exact H. Qed.
  Lemma rank_in (p : prc) t x : In (t, x) (rank_leaves p) <-> 0 <= t < T /\ In x (lvs wrap Z p t).
  Proof.
    split; [intros I; apply loc_from_labels in I; cbn [fst snd] in I; split; [lia|apply I]|]. intros (Ht & I). apply loc_from_in; [lia|exact I].
  Qed.
  Lemma refined_in p t q v m : In ((t, (q, v)), m) (flat_map (refined1 d delay) (combine (rank_leaves p) (w_flags (pr_s _ _ p)))) <->
    (exists q0 v0, has_mark p t q0 v0 1 /\ ql q0 < 29 /\ In q (childrenv d q0) /\ v = 0 /\ m = 0) \/
    (exists v0 m0, has_mark p t q v0 m0 /\ ~ (m0 = 1 /\ ql q < 29) /\ v = tick delay v0 /\ m = if m0 =? 2 then 2 else 0).
  Proof.
    rewrite in_flat_map. split.
    - intros (((t0, (q0, v0)), m0) & I & J). rewrite <- has_mark_in in I. cbn [refined1] in J. destruct ((m0 =? 1) && (ql q0 <? 29)) eqn:E.
      + left. apply in_map_iff in J. destruct J as (c & E1 & J). injection E1 as <- <- <- <-. replace m0 with 1 in I by lia. exists q0, v0. repeat split; auto; lia.
      + right. destruct J as [J|[]]. injection J as <- <- <- <-. exists v0, m0. repeat split; auto. lia.
    - intros [(q0 & v0 & I & L & J & -> & ->)|(v0 & m0 & I & N & -> & ->)].
      + exists ((t, (q0, v0)), 1). split; [apply has_mark_in; exact I|]. cbn [refined1]. change (1 =? 1) with true. replace (ql q0 <? 29) with true by lia. cbn [andb]. apply in_map_iff. exists q. auto.
      + exists ((t, (q, v0)), m0). split; [apply has_mark_in; exact I|]. cbn [refined1]. replace ((m0 =? 1) && (ql q <? 29)) with false by lia. left. reflexivity.
  Qed.

  Lemma rank_adapt fuel p p1 p2 : proc_ok d wrap Z T p -> (forall t, 0 <= t < T -> tiled d Z (lvs wrap Z p t)) -> marks_ok p ->
    refine_proc d wrap Z T init_null (refine_callback d delay) (Some (replace_on_refine d delay)) false (-1) fuel (with_s (start_refine d p) p) = Some p1 ->
    proc_ok d wrap Z T p1 -> (forall t, 0 <= t < T -> tiled d Z (lvs wrap Z p1 t)) ->
    coarsen_proc d wrap Z T init_null (coarsen_callback d delay) (if delay =? 0 then None else Some (replace_on_coarsen affect)) false true (with_s (start_coarsen p1) p1) = Some p2 ->
    w_flags (pr_s _ _ p2) = repeat 0 (length (rank_leaves p)) /\ w_bad (pr_s _ _ p2) = false /\
    rank_leaves p1 = map fst (flat_map (refined1 d delay) (combine (rank_leaves p) (w_flags (pr_s _ _ p)))) /\
    forall t r w, In (t, (r, w)) (rank_leaves p2) <->
      (merged p t r /\ w = newv delay affect) \/
      (exists q v, has_mark p t q v 1 /\ ql q < 29 /\ In r (childrenv d q) /\ w = 0) \/
      (exists v m, has_mark p t r v m /\ ~ (m = 1 /\ ql r < 29) /\ w = tick delay v /\ forall q, merged p t q -> ~ In r (childrenv d q)).
  Proof.
    intros OK TD (M1 & M2 & M3 & M4) E1 OK1 TD1 E2. set (M := w_flags (pr_s _ _ p)) in *.
    assert (NUM : pr_num _ _ p = Z.of_nat (length M)). { destruct OK as (_ & N & _). rewrite N, M1. reflexivity. }
    pose proof (refine_proc_walk d wrap Z T HT init_null (refine_callback d delay) (Some (replace_on_refine d delay)) false (-1) ltac:(lia) fuel _ _ (with_s_ok d Z wrap T (start_refine d p) p OK) TD E1) as W1.
    change (rank_leaves (with_s (start_refine d p) p)) with (rank_leaves p) in W1. cbn [with_s pr_s] in W1. unfold start_refine in W1.
    set (N := Z.to_nat _) in W1. assert (HN : N = (length M + (CH - 1) * count1 M)%nat).
    { subst N. rewrite M3, NUM, children_n. rewrite <- (Nat2Z.id (length M + _)). f_equal. rewrite Nat2Z.inj_add, Nat2Z.inj_mul, Nat2Z.inj_sub by (destruct d; cbn; lia). reflexivity. }
    clearbody N.
    destruct (refine_walk d delay (w_refines (pr_s _ _ p)) (rank_leaves p) M 0 [] (repeat 0 N) 0 (eq_sym M1) M2 ltac:(cbn [length]; lia) ltac:(rewrite repeat_length; lia)) as (r1 & f1 & R1).
    cbn [repeat app Z.of_nat] in R1. unfold M in R1 at 1. rewrite M4 in W1. rewrite R1 in W1. clear R1. apply pair_equal_spec in W1. destruct W1 as (S1 & L1).
    set (G := flat_map (refined1 d delay) (combine (rank_leaves p) M)) in *.
    pose proof (coarsen_proc_walk d wrap Z T HT init_null (coarsen_callback d delay) (if delay =? 0 then None else Some (replace_on_coarsen affect)) true _ _ (with_s_ok d Z wrap T (start_coarsen p1) p1 OK1) TD1 E2) as W2.
    cbn [with_s pr_s] in W2. unfold start_coarsen in W2. rewrite S1 in W2. cbn [w_flags w_temp w_refines w_bad] in W2.
    change (lvs wrap Z (with_s (mkw (repeat 0 (0 + length M)) (map snd G ++ f1) (w_refines (pr_s wrap Z p)) 0 0 false) p1)) with (lvs wrap Z p1) in W2.
    assert (FM : Forall (fun g => snd g = 0 \/ snd g = 2) G).
    { rewrite Forall_forall. intros ((t, (q, v)), m) I. apply refined_in in I. cbn [snd]. destruct I as [(_ & _ & _ & _ & _ & _ & ->)|(v0 & m0 & _ & _ & _ & ->)]; [left; reflexivity|destruct (m0 =? 2); auto]. }
    destruct (passes_spec d delay affect (repeat 0 (0 + length M)) (w_refines (pr_s _ _ p)) (Z.to_nat T) 0 (lvs wrap Z p1) G [] f1 0 0 (eq_sym L1) FM eq_refl) as (r2 & P2).
    cbn [app] in P2. change (lvs wrap Z _) with (lvs wrap Z p1) in W2. rewrite P2 in W2. apply pair_equal_spec in W2. destruct W2 as (S2 & L2).
    rewrite S2, L2. cbn [w_flags w_bad]. split; [rewrite Nat.add_0_l, M1; reflexivity|]. split; [reflexivity|]. split; [exact L1|].
    (* the leaves *)
    assert (TG : forall t, 0 <= t < T -> map fst (of_tree t G) = lvs wrap Z p1 t) by (intros t Ht; rewrite of_tree_fst, <- L1; apply rank_tree, Ht).
    assert (FAM : forall t q, fam_ok d delay (of_tree t G) q <-> merged p t q).
    { intros t q. unfold fam_ok, merged. split; intros (W & L & F); (split; [exact W|]; split; [exact L|]); intros c I.
      - destruct (F c I) as (v & m & J & O). apply of_tree_in, refined_in in J. unfold ok1 in O. cbn [fst snd] in O. destruct J as [(_ & _ & _ & _ & _ & _ & ->)|(v0 & m0 & J & _ & -> & Em)]; [discriminate O|].
        destruct (m0 =? 2) eqn:E0; [|subst m; discriminate O]. apply Z.eqb_eq in E0. subst m0 m. exists v0. split; [exact J|]. destruct (too_recent delay (tick delay v0)); [discriminate O|reflexivity].
      - destruct (F c I) as (v & J & O). exists (tick delay v), 2. split; [apply of_tree_in, refined_in; right; exists v, 2; repeat split; [exact J|lia]|]. unfold ok1. cbn [fst snd]. rewrite O. reflexivity. }
    intros t r w. split.
    - intros I. apply loc_from_labels in I. cbn [fst snd] in I. destruct I as (Ht & I). assert (Ht' : 0 <= t < T) by lia. destruct (TD1 t Ht') as (a & b & TL).
      rewrite <- (TG t Ht') in TL. rewrite map_map in TL. apply (squeeze_in d delay affect _ _ a b) in I; [|rewrite <- (TG t Ht'), map_length; lia|exact TL]. destruct I as [(F & ->)|(m & I & NF)].
      + left. split; [apply FAM, F|reflexivity].
      + right. apply of_tree_in, refined_in in I. destruct I as [(q0 & v0 & H1 & H2 & H3 & H4 & _)|(v0 & m0 & H1 & H2 & H3 & _)].
        * left. exists q0, v0. auto.
        * right. exists v0, m0. repeat split; auto. intros q MQ. apply NF, FAM, MQ.
    - intros I.
      assert (Ht : 0 <= t < T).
      { assert (HM : forall q v m, has_mark p t q v m -> 0 <= t < T) by (intros q v m (i & Hi & _); apply nth_error_In, rank_in in Hi; apply Hi).
        destruct I as [((_ & _ & F) & _)|[(q & v & H & _)|(v & m & H & _)]]; [|eapply HM; eauto..].
        destruct (childrenv d r) as [|c cs] eqn:E; [destruct d; discriminate|]. destruct (F c (or_introl eq_refl)) as (v & H & _). eapply HM; eauto. }
      apply loc_from_in; [lia|]. destruct (TD1 t Ht) as (a & b & TL). rewrite <- (TG t Ht), map_map in TL.
      apply (squeeze_in d delay affect _ _ a b); [rewrite <- (TG t Ht), map_length; lia|exact TL|].
      destruct I as [(F & ->)|[(q & v & H1 & H2 & H3 & ->)|(v & m & H1 & H2 & -> & H4)]].
      + left. split; [apply FAM, F|reflexivity].
      + right. assert (IR : In ((r, 0), 0) (of_tree t G)) by (apply of_tree_in, refined_in; left; exists q, v; auto). exists 0. split; [exact IR|].
        intros q' (W & L & F) IC. destruct (F r IC) as (v' & m' & J & O). assert (X : ((r, 0), 0) = ((r, v'), m')) by (apply (nodup_map_inj _ _ _ _ (tiles_nodup _ _ _ _ TL) IR J); reflexivity). injection X as <- <-. discriminate O.
      + right. exists (if m =? 2 then 2 else 0). split; [apply of_tree_in, refined_in; right; exists v, m; auto|]. intros q F. apply H4, FAM, F.
  Qed.
End WR.
