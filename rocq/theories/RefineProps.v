(** * Consequences for the refined leaves *)

From Coq Require Import ZArith List Bool Lia ZifyBool Sorting.Sorted.
From Verif Require Import Quad Spec Interval QuadLemmas DescLemmas Tree TreeLemmas SearchLocal Tiles Adapt AdaptSpec ListLemmas RefineLemmas.
Import ListNotations.
Open Scope Z_scope.

Lemma walk_in {St A B : Type} (f : St -> A -> St * list B) l : forall s y, In y (snd (walk f s l)) ->
  exists s' x, In x l /\ In y (snd (f s' x)).
Proof.
  induction l as [|x l IH]; intros s y I; [destruct I|]. cbn [walk] in I.
  destruct (f s x) as (s1, o1) eqn:E1. specialize (IH s1 y). destruct (walk f s1 l) as (s2, o2). cbn [snd] in *.
  apply in_app_or in I. destruct I as [I|I].
  - exists s, x. rewrite E1. split; [left; reflexivity|exact I].
  - destruct (IH I) as (s' & x' & I1 & I2). exists s', x'. split; [right; exact I1|exact I2].
Qed.

Section P.
  Variable d : dim.
  Variables (St D : Type).
  Variable init_fn : St -> Z -> quad -> St * D.
  Variable refine_fn : St -> Z -> quad -> D -> St * D * bool.
  Variable replace_fn : option (St -> Z -> leaf D -> list (leaf D) -> St * list D).
  Variable recursive : bool.
  Variable allowed : Z.
  Variable nt : Z.
  Notation VISIT := (visit d St D refine_fn init_fn replace_fn recursive allowed nt).

  Lemma walk_tiles (f : St -> leaf D -> St * list (leaf D)) l : forall s a b,
    tiles d a b (map fst l) ->
    (forall lf, In lf l -> forall s, tiles d (qpos d (fst lf)) (qend d (fst lf)) (map fst (snd (f s lf)))) ->
    tiles d a b (map fst (snd (walk f s l))).
  Proof.
    induction l as [|x l IH]; intros s a b T H; [exact T|]. destruct T as (W & <- & T). cbn [walk].
    pose proof (H x (or_introl eq_refl) s) as T1. destruct (f s x) as (s1, o1).
    specialize (IH s1 _ _ T (fun y Hy => H y (or_intror Hy))).
    destruct (walk f s1 l) as (s2, o2). cbn [snd] in *. rewrite map_app. eapply tiles_app; eauto.
  Qed.

  Lemma kids_fst s lf : map fst (snd (make_children d St D init_fn replace_fn nt s lf)) = childrenv d (fst lf).
  Proof. rewrite <- split_kids. apply split_fst. Qed.

  Hypothesis Ha : allowed <= 29.

  Lemma visit_tiles : forall n created s lf, wf d (fst lf) -> allowed - ql (fst lf) <= Z.of_nat n ->
    tiles d (qpos d (fst lf)) (qend d (fst lf)) (map fst (snd (VISIT n created s lf))).
  Proof.
    induction n as [|n IH]; intros created s lf W Hn; cbn [visit];
    (destruct (created && negb recursive); [cbn [snd map tiles]; auto|]);
    destruct (refine_fn s nt (fst lf) (snd lf)) as ((s1, v), yes);
    (destruct (yes && (ql (fst lf) <? allowed)) eqn:Ey; [|cbn [snd map fst tiles]; auto]).
    - lia.
    - pose proof (kids_fst s1 (fst lf, v)) as K.
      destruct (make_children d St D init_fn replace_fn nt s1 (fst lf, v)) as (s2, ch). cbn [snd fst] in K.
      pose proof (tiles_children d (fst lf) W ltac:(lia)) as TC. rewrite <- K in TC.
      apply walk_tiles; [exact TC|]. intros c Ic s0. apply IH.
      + pose proof (tiles_wf _ _ _ _ TC) as F. rewrite Forall_forall in F. apply F. apply in_map. exact Ic.
      + apply (in_map fst) in Ic. rewrite K, childrenv_child in Ic. apply in_map_iff in Ic.
        destruct Ic as (i & <- & _). cbn. lia.
  Qed.

  Lemma visit_level : forall n created s lf x, In x (snd (VISIT n created s lf)) ->
    ql (fst lf) <= ql (fst x) /\ (fst x = fst lf \/ ql (fst x) <= allowed) /\
    (recursive = false -> ql (fst x) <= ql (fst lf) + (if created then 0 else 1)).
  Proof.
    induction n as [|n IH]; intros created s lf x; cbn [visit];
    (destruct (created && negb recursive) eqn:Ec;
      [cbn [snd]; intros [<-|[]]; split; [lia|]; split; [auto|]; destruct created; lia|]);
    destruct (refine_fn s nt (fst lf) (snd lf)) as ((s1, v), yes);
    (destruct (yes && (ql (fst lf) <? allowed)) eqn:Ey;
      [|cbn [snd]; intros [<-|[]]; cbn [fst]; split; [lia|]; split; [auto|]; destruct created; lia]).
    - intros [].
    - pose proof (kids_fst s1 (fst lf, v)) as K.
      destruct (make_children d St D init_fn replace_fn nt s1 (fst lf, v)) as (s2, ch). cbn [snd fst] in K.
      intros I. apply walk_in in I. destruct I as (s' & c & Ic & Ix). apply IH in Ix.
      apply (in_map fst) in Ic. rewrite K, childrenv_child in Ic. apply in_map_iff in Ic.
      destruct Ic as (i & Ei & _). assert (Lc : ql (fst c) = ql (fst lf) + 1) by (rewrite <- Ei; reflexivity).
      split; [lia|]. split; [destruct Ix as (_ & [E|E] & _); [rewrite E in *; right; lia|right; lia]|].
      intros Er. destruct created; [rewrite Er in Ec; discriminate|]. destruct Ix as (_ & _ & H). specialize (H Er). lia.
  Qed.

  (** the leaves that recursive refinement by a predicate on quadrants must produce *)
  Definition final (P : quad -> bool) (q r : quad) : Prop :=
    wf d r /\ within d q r /\
    (forall a, wf d a -> within d q a -> within d a r -> a <> r -> P a = true /\ ql a < allowed) /\
    ~ (P r = true /\ ql r < allowed).

  Variable P : quad -> bool.
  Hypothesis HP : forall s q v, snd (refine_fn s nt q v) = P q.
  Hypothesis Hrec : recursive = true.

  Lemma visit_final : forall n created s lf, wf d (fst lf) -> allowed - ql (fst lf) <= Z.of_nat n ->
    forall r, In r (map fst (snd (VISIT n created s lf))) <-> final P (fst lf) r.
  Proof.
    assert (LEAF : forall q r, wf d q -> ~ (P q = true /\ ql q < allowed) -> (q = r <-> final P q r)).
    { intros q r W N. split.
      - intros <-. split; [auto|]. split; [split; lia|]. split; [|exact N].
        intros a Wa I1 I2 Ne. exfalso. apply Ne. unfold within in *. 
        assert (L1 : ql a <= ql q) by (apply (within_level d a q); auto).
        assert (L2 : ql q <= ql a) by (apply (within_level d q a); auto).
        apply (within_eq d a q); auto; lia.
      - intros (Wr & I & H & _). destruct (quad_eq_dec q r) as [E|E]; [auto|]. exfalso.
        apply N. apply (H q); auto. split; lia. }
    induction n as [|n IH]; intros created s lf W Hn r; cbn [visit];
    replace (created && negb recursive) with false by (rewrite Hrec; destruct created; reflexivity);
    pose proof (HP s (fst lf) (snd lf)) as Hy;
    destruct (refine_fn s nt (fst lf) (snd lf)) as ((s1, v), yes); cbn [snd] in Hy; subst yes;
    (destruct (P (fst lf) && (ql (fst lf) <? allowed)) eqn:Ey;
      [|cbn [snd map fst In]; rewrite <- LEAF; [split; [intros [E|[]]; auto|auto]|auto|lia]]).
    - lia.
    - pose proof (kids_fst s1 (fst lf, v)) as K.
      destruct (make_children d St D init_fn replace_fn nt s1 (fst lf, v)) as (s2, ch). cbn [snd fst] in K.
      pose proof (tiles_children d (fst lf) W ltac:(lia)) as TC.
      assert (CI : forall c, In c ch <-> exists i w, c = (child d (fst lf) i, w) /\ 0 <= i < children d /\ In c ch).
      { intros c. split; [|intros (_ & _ & _ & _ & I); exact I]. intros I.
        pose proof (in_map fst _ _ I) as I'. rewrite K, childrenv_child in I'. apply in_map_iff in I'.
        destruct I' as (i & Ei & Ii). exists i, (snd c). split; [rewrite Ei; destruct c; reflexivity|].
        split; [|exact I]. clear - Ii. destruct d; cbn in Ii; cbn; lia. }
      assert (GEN : In r (map fst (snd (walk (VISIT n true) s2 ch))) <-> exists c, In c (map fst ch) /\ final P c r).
      { assert (LC : forall c, In c ch -> wf d (fst c) /\ allowed - ql (fst c) <= Z.of_nat n).
        { intros c Ic. apply CI in Ic. destruct Ic as (i & w & -> & Hi & _). cbn [fst].
          pose proof (child_wf d (fst lf) i W ltac:(lia) Hi) as (Wc & Lc & _). split; [auto|lia]. }
        clear - IH LC. revert s2. induction ch as [|c ch IHc]; intros s2.
        - cbn. split; [intros []|intros (c & [] & _)].
        - cbn [walk]. destruct (LC c (or_introl eq_refl)) as (Wc & Lc).
          pose proof (IH true s2 c Wc Lc r) as H1. destruct (VISIT n true s2 c) as (s3, o3).
          specialize (IHc (fun x Hx => LC x (or_intror Hx)) s3).
          destruct (walk (VISIT n true) s3 ch) as (s4, o4). cbn [snd] in *. rewrite map_app, in_app_iff, H1, IHc.
          cbn [map In]. split.
          + intros [F|(c' & I & F)]; eauto.
          + intros (c' & [<-|I] & F); eauto. }
      rewrite GEN, K, childrenv_child. clear GEN CI K.
      split.
      + intros (c & Ic & Wr & I & H & N). apply in_map_iff in Ic. destruct Ic as (i & <- & Ii).
        assert (Hi : 0 <= i < children d) by (clear - Ii; destruct d; cbn in Ii; cbn; lia).
        pose proof (child_within d (fst lf) i W ltac:(lia) Hi) as CW.
        pose proof (child_wf d (fst lf) i W ltac:(lia) Hi) as (Wc & Lc & _).
        split; [auto|]. split; [eapply within_trans; eauto|]. split; [|auto].
        intros a Wa I1 I2 Ne.
        destruct (Z.eq_dec (ql a) (ql (fst lf))) as [E|E].
        * rewrite <- (within_eq d (fst lf) a); auto; lia.
        * apply H; auto. pose proof (within_level d _ _ W Wa I1).
          destruct (nested d (child d (fst lf) i) a Wc Wa) as [G|G]; auto;
          pose proof (size_pos d r Wr); unfold within in *; try lia.
          pose proof (within_level d a (child d (fst lf) i) Wa Wc G).
          rewrite (within_eq d a (child d (fst lf) i)); auto; lia.
      + intros (Wr & I & H & N).
        assert (LT : ql (fst lf) < ql r).
        { pose proof (within_level d _ _ W Wr I). destruct (Z.eq_dec (ql (fst lf)) (ql r)) as [E|E]; [|lia].
          exfalso. apply N. rewrite <- (within_eq d (fst lf) r); auto; lia. }
        destruct (anc_child d (fst lf) r W Wr I LT) as (Hi & Wi).
        set (i := ancestor_id d r (ql (fst lf) + 1)) in *.
        exists (child d (fst lf) i). split.
        { apply in_map. clear - Hi. destruct d; cbn in *; lia. }
        pose proof (child_within d (fst lf) i W ltac:(lia) Hi) as CW.
        split; [auto|]. split; [auto|]. split; [|auto].
        intros a Wa I1 I2 Ne. apply H; auto. eapply within_trans; eauto.
  Qed.
End P.
