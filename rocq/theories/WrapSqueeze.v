(** * Which leaves one pass of the wrap coarsening leaves behind *)

From Coq Require Import ZArith List Bool Lia Arith ZifyBool Sorting.Sorted.
From Verif Require Import Quad Spec Interval QuadLemmas DescLemmas Tree TreeLemmas SearchLocal Search Adapt AdaptSpec ListLemmas PropertiesCoarsen Tiles CoarsenFix WrapLemmas.
Import ListNotations.
Open Scope Z_scope.

Lemma tiles_nodup d l : forall a b, tiles d a b l -> NoDup l.
Proof.
  induction l as [|q l IH]; intros a b H; [constructor|]. destruct H as (W & _ & H). constructor; [|eapply IH; eauto].
  intros I. pose proof (tiles_bounds d l _ _ _ H I). pose proof (size_pos d q W). lia.
Qed.
Lemma nodup_map_inj {A B} (f : A -> B) l x y : NoDup (map f l) -> In x l -> In y l -> f x = f y -> x = y.
Proof.
  induction l as [|a l IH]; cbn [map]; intros N Ix Iy E; [destruct Ix|]. inversion N as [|? ? N1 N2]; subst. destruct Ix as [<-|Ix], Iy as [<-|Iy].
  - reflexivity.
  - exfalso. apply N1. rewrite E. apply in_map, Iy.
  - exfalso. apply N1. rewrite <- E. apply in_map, Ix.
  - apply IH; assumption.
Qed.

Section SQ.
  Variable d : dim.
  Variables (delay : Z) (affect : bool).
  Local Notation leaf := (quad * Z)%type.
  Local Notation CH := (childrenn d).
  Local Notation fqd := (fun x : leaf * Z => fst (fst x)).

  (** p's children are all in the list, marked, and not too recent *)
  Definition fam_ok (l : list (leaf * Z)) (p : quad) : Prop :=
    wf d p /\ ql p < 29 /\ forall c, In c (childrenv d p) -> exists v m, In ((c, v), m) l /\ ok1 delay ((c, v), m) = true.

  Lemma of_parent p c : wf d p -> ql p < 29 -> In c (childrenv d p) -> parent d c = p /\ 0 < ql c.
  Proof.
    intros W L I. apply childrenv_in in I. destruct I as (i & Hi & ->). split; [apply child_parent; auto|]. destruct (child_wf d p i W L Hi) as (_ & A & _). pose proof (wf_level _ _ W). lia.
  Qed.

  Lemma squeeze_in : forall n l a b, (length l <= n)%nat -> tiles d a b (map fqd l) -> forall r w,
    In (r, w) (squeeze d delay affect n l) <->
    (fam_ok l r /\ w = newv delay affect) \/ (exists m, In ((r, w), m) l /\ forall p, fam_ok l p -> ~ In r (childrenv d p)).
  Proof.
    induction n as [|n IH]; intros l a b HL TL r w.
    { destruct l; [|cbn in HL; lia]. cbn [squeeze In]. split; [tauto|]. intros [((W & L & F) & _)|(m & [] & _)].
      destruct (childrenv d r) as [|c cs] eqn:E; [destruct d; discriminate|]. destruct (F c (or_introl eq_refl)) as (v & m & [] & _). }
    destruct l as [|x l'].
    { cbn [squeeze In]. split; [tauto|]. intros [((W & L & F) & _)|(m & [] & _)].
      destruct (childrenv d r) as [|c cs] eqn:E; [destruct d; discriminate|]. destruct (F c (or_introl eq_refl)) as (v & m & [] & _). }
    cbn [length] in HL. set (l := x :: l') in *.
    assert (SQ : squeeze d delay affect (S n) l = if familyb d (fst (fst x)) (map fqd (firstn CH l)) && forallb (ok1 delay) (firstn CH l) then (parent d (fst (fst x)), newv delay affect) :: squeeze d delay affect n (skipn CH l) else fst x :: squeeze d delay affect n l') by reflexivity.
    assert (CP : (0 < CH)%nat) by (destruct d; cbn; lia).
    assert (FW : Forall (wf d) (map fqd (firstn CH l))).
    { pose proof (tiles_wf _ _ _ _ TL) as W. rewrite <- (firstn_skipn CH l), map_app in W. apply Forall_app in W. apply W. }
    assert (FI : forall p, wf d p -> ql p < 29 -> (familyb d (fst (fst x)) (map fqd (firstn CH l)) = true <-> exists p, wf d p /\ ql p < 29 /\ map fqd (firstn CH l) = childrenv d p)).
    { intros _ _ _. destruct CH as [|k] eqn:EK; [lia|]. apply (familyb_iff d (fst (fst x)) (map fqd (firstn k l'))); [reflexivity|exact FW]. }
    assert (ND : NoDup (map fqd l)) by (eapply tiles_nodup; eauto).
    destruct (familyb d (fst (fst x)) (map fqd (firstn CH l)) && forallb (ok1 delay) (firstn CH l)) eqn:EB; rewrite SQ; clear SQ.
    - apply andb_true_iff in EB. destruct EB as (EF & EO). rewrite forallb_forall in EO.
      assert (exists p0, wf d p0 /\ ql p0 < 29 /\ map fqd (firstn CH l) = childrenv d p0) as (p0 & W0 & L0 & E0).
      { destruct CH as [|k] eqn:EK; [lia|]. apply (familyb_iff d (fst (fst x)) (map fqd (firstn k l'))) in EF; [exact EF|reflexivity|exact FW]. }
      assert (PX : parent d (fst (fst x)) = p0).
      { apply (of_parent p0); auto. rewrite <- E0. destruct CH; [lia|left; reflexivity]. }
      rewrite PX. set (A := firstn CH l) in *. set (B := skipn CH l) in *. assert (EL : l = A ++ B) by (symmetry; apply firstn_skipn).
      assert (TB : exists a', tiles d a' b (map fqd B)). { rewrite EL, map_app in TL. apply tiles_split in TL. destruct TL as (m & _ & H). exists m. exact H. }
      destruct TB as (a' & TB).
      assert (FP0 : fam_ok l p0).
      { split; [exact W0|]. split; [exact L0|]. intros c I. rewrite <- E0 in I. apply in_map_iff in I. destruct I as (((c', v), m) & E & I). cbn in E. subst c'. exists v, m. split; [rewrite EL; apply in_or_app; left; exact I|apply EO, I]. }
      assert (FAM : forall p, fam_ok l p <-> p = p0 \/ fam_ok B p).
      { intros p. split.
        - intros (W & L & F). destruct (quad_eq_dec p p0) as [|N]; [left; assumption|right]. split; [exact W|]. split; [exact L|]. intros c I. destruct (F c I) as (v & m & Im & O). exists v, m. split; [|exact O].
          rewrite EL in Im. apply in_app_or in Im. destruct Im as [Im|Im]; [|exact Im]. exfalso. apply N.
          assert (I0 : In c (childrenv d p0)) by (rewrite <- E0; apply (in_map fqd) in Im; exact Im).
          destruct (of_parent p c W L I) as (P1 & _). destruct (of_parent p0 c W0 L0 I0) as (P2 & _). congruence.
        - intros [->|(W & L & F)]; [exact FP0|]. split; [exact W|]. split; [exact L|]. intros c I. destruct (F c I) as (v & m & Im & O). exists v, m. split; [|exact O]. rewrite EL. apply in_or_app. right. exact Im. }
      assert (NB : forall c, In c (childrenv d p0) -> ~ In c (map fqd B)).
      { intros c I1 I2. rewrite EL, map_app in ND. rewrite <- E0 in I1. clear - ND I1 I2. induction (map fqd A) as [|y Y IHY]; [destruct I1|]. cbn [app] in ND. inversion ND as [|? ? N1 N2]; subst. destruct I1 as [<-|I1]; [apply N1, in_or_app; right; exact I2|apply IHY; assumption]. }
      cbn [In]. rewrite (IH B a' b); [|unfold B; rewrite skipn_length; unfold l; cbn [length]; lia|exact TB]. split.
      + intros [E|[(F & Ew)|(m & I & N)]].
        * apply pair_equal_spec in E. destruct E as (<- & <-). left. split; [exact FP0|reflexivity].
        * left. split; [apply FAM; right; exact F|exact Ew].
        * right. exists m. split; [rewrite EL; apply in_or_app; right; exact I|]. intros p F. apply FAM in F. destruct F as [->|F]; [|apply N, F]. intros Ic. apply (NB r Ic). apply (in_map fqd) in I. exact I.
      + intros [(F & Ew)|(m & I & N)].
        * apply FAM in F. destruct F as [->|F]; [left; rewrite Ew; reflexivity|right; left; split; assumption].
        * right. right. exists m. split; [|intros p F; apply N, FAM; right; exact F]. rewrite EL in I. apply in_app_or in I. destruct I as [I|I]; [|exact I]. exfalso. apply (N p0 FP0). rewrite <- E0. apply (in_map fqd) in I. exact I.
    - assert (NX : forall p, fam_ok l p -> ~ In (fst (fst x)) (childrenv d p)).
      { intros p (W & L & F) I. assert (INL : forall c, In c (childrenv d p) -> In c (map fqd l)).
        { intros c Ic. destruct (F c Ic) as (v & m & Im & _). apply (in_map fqd) in Im. exact Im. }
        destruct (children_window d _ _ _ p TL W L INL) as (i & Hi & EW). destruct i as [|i].
        - cbn [skipn] in EW. rewrite firstn_map in EW. assert (T1 : familyb d (fst (fst x)) (map fqd (firstn CH l)) = true) by (apply (FI p W L); exists p; auto).
          rewrite T1 in EB. cbn [andb] in EB. assert (forallb (ok1 delay) (firstn CH l) = true) as T2; [|rewrite T2 in EB; discriminate].
          apply forallb_forall. intros y Iy. assert (Ic : In (fqd y) (childrenv d p)) by (rewrite <- EW; apply (in_map fqd), Iy). destruct (F _ Ic) as (v & m & Im & O).
          assert (IL : In y l) by (rewrite <- (firstn_skipn CH l); apply in_or_app; left; exact Iy).
          rewrite (nodup_map_inj fqd l y ((fqd y, v), m) ND IL Im eq_refl). exact O.
        - rewrite <- EW in I. unfold l in I. cbn [map skipn] in I. assert (I2 : In (fst (fst x)) (map fqd l')).
          { clear - I. rewrite <- (firstn_skipn i (map fqd l')). apply in_or_app. right. rewrite <- (firstn_skipn CH (skipn i (map fqd l'))). apply in_or_app. left. exact I. }
          unfold l in ND. cbn [map] in ND. inversion ND. contradiction. }
      assert (FAM : forall p, fam_ok l p <-> fam_ok l' p).
      { intros p. split.
        - intros FP. pose proof (NX p FP) as NXP. destruct FP as (W & L & F). split; [exact W|]. split; [exact L|]. intros c I. destruct (F c I) as (v & m & [E|Im] & O); [|exists v, m; auto]. exfalso. apply NXP. rewrite E. exact I.
        - intros (W & L & F). split; [exact W|]. split; [exact L|]. intros c I. destruct (F c I) as (v & m & Im & O). exists v, m. split; [right; exact Im|exact O]. }
      destruct TL as (Wx & Px & TL'). cbn [In]. rewrite (IH l' _ b) by (try lia; exact TL'). split.
      + intros [E|[(F & Ew)|(m & I & N)]].
        * right. exists (snd x). split; [left; destruct x as (lf, m); cbn [fst snd] in *; subst; reflexivity|]. intros p F. apply NX in F. rewrite E in F. exact F.
        * left. split; [apply FAM; exact F|exact Ew].
        * right. exists m. split; [right; exact I|]. intros p F. apply N, FAM, F.
      + intros [(F & Ew)|(m & [E|I] & N)].
        * right. left. split; [apply FAM; exact F|exact Ew].
        * left. rewrite E. reflexivity.
        * right. right. exists m. split; [exact I|]. intros p F. apply N, FAM, F.
  Qed.
End SQ.
