(** * Fixed point of recursive coarsening, one pass of nonrecursive coarsening *)

From Coq Require Import ZArith List Bool Lia ZifyBool Sorting.Sorted.
From Verif Require Import Quad Spec Interval QuadLemmas DescLemmas Tree TreeLemmas SearchLocal Tiles Adapt AdaptSpec ListLemmas RefineLemmas RefineProps CoarsenLemmas CoarsenGeo CoarsenProps.
Import ListNotations.
Open Scope Z_scope.

Section Geo.
  Variable d : dim.

  (** tiles of the beginning of an interval that occur in a tiling are its first elements *)
  Lemma tiles_prefix : forall cs l a b b', tiles d a b l -> tiles d a b' cs -> (forall c, In c cs -> In c l) ->
    exists l', l = cs ++ l'.
  Proof.
    induction cs as [|c cs IH]; intros l a b b' Tl Tc H; [exists l; reflexivity|].
    destruct l as [|x l]; [destruct (H c (or_introl eq_refl))|].
    destruct Tl as (Wx & Px & Tl), Tc as (Wc & Pc & Tc).
    assert (Exc : x = c).
    { destruct (H c (or_introl eq_refl)) as [E|I]; [auto|]. exfalso.
      pose proof (tiles_bounds _ _ _ _ _ Tl I). pose proof (size_pos d x Wx). lia. }
    subst x. destruct (IH l _ _ _ Tl Tc) as (l' & ->); [|exists l'; reflexivity].
    intros c' I. destruct (H c' (or_intror I)) as [E|I']; [|exact I'].
    exfalso. subst c'. pose proof (tiles_bounds _ _ _ _ _ Tc I). pose proof (size_pos d c Wc). lia.
  Qed.

  Lemma children_window L a b p : tiles d a b L -> wf d p -> ql p < 29 -> (forall c, In c (childrenv d p) -> In c L) ->
    exists i, (i + childrenn d <= length L)%nat /\ firstn (childrenn d) (skipn i L) = childrenv d p.
  Proof.
    intros T Wp Lp H. pose proof (tiles_children d p Wp Lp) as TC.
    destruct (childrenv d p) as [|c0 cs] eqn:Ec; [destruct d; discriminate|].
    assert (CL : length (childrenv d p) = childrenn d) by (destruct d; reflexivity). rewrite Ec in CL.
    destruct (in_split c0 L (H c0 (or_introl eq_refl))) as (L1 & L2 & ->).
    apply tiles_split in T. destruct T as (m & T1 & T2).
    assert (Em : m = qpos d p). { destruct T2 as (_ & <- & _), TC as (_ & -> & _). reflexivity. }
    subst m. destruct (tiles_prefix _ _ _ _ _ T2 TC) as (l' & E).
    { intros c I. pose proof (tiles_bounds _ _ _ _ _ TC I) as B. destruct (in_app_or _ _ _ (H c I)) as [I1|I2]; [|exact I2].
      exfalso. pose proof (tiles_bounds _ _ _ _ _ T1 I1). pose proof (tiles_wf _ _ _ _ TC) as F. rewrite Forall_forall in F.
      pose proof (size_pos d c (F c I)). lia. }
    exists (length L1). rewrite E. split.
    - rewrite !app_length, CL. lia.
    - rewrite <- CL. clear. generalize (c0 :: cs). intros X.
      induction L1 as [|y L1 IH]; [|exact IH]. cbn [length app skipn]. rewrite firstn_app, Nat.sub_diag, firstn_all. cbn [firstn]. apply app_nil_r.
  Qed.
  Lemma in_childrenv p i : 0 <= i < children d -> In (child d p i) (childrenv d p).
  Proof. intros H. rewrite childrenv_child. apply in_map. destruct d; cbn in *; lia. Qed.
  Lemma childrenv_in p c : In c (childrenv d p) -> exists i, 0 <= i < children d /\ c = child d p i.
  Proof.
    intros H. rewrite childrenv_child in H. apply in_map_iff in H. destruct H as (i & <- & I).
    exists i. split; [destruct d; cbn in *; lia|reflexivity].
  Qed.
End Geo.

Section C.
  Variable d : dim.
  Variables (St D : Type).
  Variable init_fn : St -> Z -> quad -> St * D.
  Variable coarsen_fn : St -> Z -> list (leaf D) -> St * list D * bool.
  Variable replace_fn : option (St -> Z -> list (leaf D) -> leaf D -> St * D).
  Variables (recursive orphans : bool).
  Variable jt : Z.
  Notation CH := (childrenn d).
  Notation astep := (abs_step d St D init_fn coarsen_fn replace_fn recursive orphans jt).
  Notation aloop := (abs_loop d St D init_fn coarsen_fn replace_fn recursive orphans jt).
  Notation tiled a b L := (tiles d a b (map fst L)).

  (** ** replacing families by their parents *)
  Inductive merges : list quad -> list quad -> Prop :=
  | merges_refl L : merges L L
  | merges_step L L1 p L2 : merges L (L1 ++ childrenv d p ++ L2) -> wf d p -> ql p < 29 -> merges L (L1 ++ p :: L2).

  Lemma aloop_merges fuel a b s L : tiled a b L -> (CH * length L < fuel)%nat ->
    exists s' L' w', aloop fuel s L 0 = Some (s', L', w') /\ merges (map fst L) (map fst L').
  Proof.
    intros T Hf.
    destruct (aloop_inv d St D init_fn coarsen_fn replace_fn recursive orphans jt
                (fun _ L1 _ => merges (map fst L) (map fst L1))) with (fuel := fuel) (a := a) (b := b) (s := s) (L := L) (w := 0%nat)
      as (s' & L' & w' & E & _ & M & _); auto; try lia; [|apply merges_refl|eauto].
    intros a0 b0 s0 L0 w0 T0 I0 H0.
    pose proof (astep_cases d St D init_fn coarsen_fn replace_fn recursive orphans jt a0 b0 s0 L0 w0 T0 H0) as C.
    destruct (astep s0 L0 w0) as ((s1, L1), w1). cbv zeta in C.
    destruct C as [(p & pv & Wp & Lp & M & Ep & -> & _)|(M & _)]; [|rewrite M; exact I0].
    rewrite map_app. cbn [map]. rewrite Ep. apply merges_step; auto. rewrite <- M, <- !map_app, skipn_plus, firstn_skipn, firstn_skipn. exact I0.
  Qed.

  (** ** fixed point *)
  Variable P : quad -> bool.
  Hypothesis HP : forall s p fam, wf d p -> ql p < 29 -> map fst fam = childrenv d p -> snd (coarsen_fn s jt fam) = P p.

  Definition nofam (L : list (leaf D)) (w : nat) : Prop := forall i p, (i < w)%nat -> (i + CH <= length L)%nat ->
    wf d p -> ql p < 29 -> map fst (firstn CH (skipn i L)) = childrenv d p -> P p = false.

  Lemma nofam_step (Hrec : recursive = true) a b s L w : tiled a b L -> nofam L w -> (w + CH <= length L)%nat ->
    let '(_, L', w') := astep s L w in nofam L' w'.
  Proof.
    intros T N H.
    pose proof (astep_cases d St D init_fn coarsen_fn replace_fn recursive orphans jt a b s L w T H) as C.
    destruct (astep s L w) as ((s1, L1), w1). cbv zeta in C. pose proof (CHpos d) as C4.
    destruct C as [(p & pv & Wp & Lp & M & Ep & -> & _ & Ew)|(M & -> & Hno)].
    - intros i p' Hi Hl Wp' Lp' M'.
      assert (Lw : (w <= length L)%nat) by lia.
      assert (LF : length (firstn w L) = w) by (rewrite firstn_length; lia).
      assert (Hiw : (i <= w)%nat) by (destruct (Nat.leb _ w && recursive) in Ew; lia).
      destruct (Nat.le_gt_cases (i + CH) w) as [Le|Gt].
      + apply (N i p'); auto; try lia. rewrite <- M'. f_equal.
        apply list_ext. intros k. destruct (Nat.lt_ge_cases k CH) as [Lk|Gk].
        * rewrite !nth_firstn, !nth_skipn by lia. rewrite nth_error_app1 by lia. rewrite nth_firstn by lia. reflexivity.
        * rewrite !(proj2 (nth_error_None _ _)); auto; rewrite firstn_length; lia.
      + exfalso.
        assert (E : nth_error (childrenv d p') (w - i) = Some p).
        { rewrite <- M', nth_error_map, nth_firstn, nth_skipn by lia.
          rewrite nth_error_app2 by lia. replace (i + (w - i) - length (firstn w L))%nat with 0%nat by lia.
          cbn [nth_error option_map]. rewrite Ep. reflexivity. }
        rewrite childrenv_child, nth_error_map in E.
        assert (CI : nth_error (cids d) (w - i) = Some (Z.of_nat (w - i))).
        { clear - Gt Hiw. assert (X : (w - i < CH)%nat) by lia. revert X. generalize (w - i)%nat. intros n Hn.
          destruct d; cbn [childrenn] in Hn; do 8 (destruct n as [|n]; [first [lia|reflexivity]|]); lia. }
        rewrite CI in E. cbn [option_map] in E. inversion E as [E'].
        assert (ID : child_id d p = Z.of_nat (w - i)).
        { rewrite <- E'. apply child_mod; auto. assert (Z.of_nat CH = children d) by (destruct d; reflexivity). lia. }
        rewrite ID, Nat2Z.id, Hrec, andb_true_r in Ew. destruct (Nat.leb_spec (w - i) w); lia.
    - intros i p' Hi Hl Wp' Lp' M'.
      assert (LL : length L1 = length L) by (rewrite <- (map_length fst), M, map_length; reflexivity).
      assert (M2 : map fst (firstn CH (skipn i L)) = childrenv d p').
      { rewrite <- M', <- !firstn_map, <- !fst_skipn, M. reflexivity. }
      destruct (Nat.lt_ge_cases i w) as [Lt|Ge]; [apply (N i p'); auto; lia|].
      assert (i = w) by lia. subst i. rewrite <- (HP s p' (firstn CH (skipn w L))); auto. apply (Hno p'); auto.
  Qed.

  (** ** what can be merged completely *)
  Definition good (orig : list quad) (a b : Z) (r : quad) : Prop :=
    wf d r /\ a <= qpos d r /\ qend d r <= b /\
    (forall q, In q orig -> qpos d q < qend d r -> qpos d r < qend d q -> within d r q) /\
    (forall c q, wf d c -> within d r c -> In q orig -> within d c q -> c <> q -> P c = true).

  Lemma within_antisym x y : wf d x -> wf d y -> within d x y -> within d y x -> x = y.
  Proof.
    intros Wx Wy H1 H2. pose proof (within_level d x y Wx Wy H1). pose proof (within_level d y x Wy Wx H2).
    apply (within_eq d); auto. lia.
  Qed.

  Lemma tiles_disjoint l a b x y : tiles d a b l -> In x l -> In y l -> qpos d x < qend d y -> qpos d y < qend d x -> x = y.
  Proof.
    intros T Ix Iy O1 O2.
    destruct (In_nth_error _ _ Ix) as (i & Ei). destruct (In_nth_error _ _ Iy) as (j & Ej).
    pose proof (tiles_wf _ _ _ _ T) as F. rewrite Forall_forall in F.
    pose proof (size_pos d x (F _ Ix)). pose proof (size_pos d y (F _ Iy)).
    assert (i = j).
    { apply (tiles_unique d l a b i j x y (Z.max (qpos d x) (qpos d y))); auto; lia. }
    subst j. congruence.
  Qed.

  Lemma good_orig orig a b q : tiles d a b orig -> In q orig -> good orig a b q.
  Proof.
    intros T I. pose proof (tiles_wf _ _ _ _ T) as F. rewrite Forall_forall in F.
    pose proof (tiles_bounds _ _ _ _ _ T I). split; [auto|]. split; [lia|]. split; [lia|]. split.
    - intros q' I' O1 O2. rewrite (tiles_disjoint orig a b q q'); auto. split; lia.
    - intros c q' Wc W1 I' W2 Ne. exfalso. apply Ne.
      pose proof (size_pos d q' (F _ I')). unfold within in *.
      assert (q = q') by (apply (tiles_disjoint orig a b q q'); auto; lia). subst q'.
      apply within_antisym; auto; unfold within; lia.
  Qed.

  Lemma child_of_within p c : wf d p -> ql p < 29 -> wf d c -> within d p c -> c <> p ->
    exists i, 0 <= i < children d /\ within d (child d p i) c.
  Proof.
    intros Wp Lp Wc W Ne. pose proof (within_level d p c Wp Wc W).
    assert (ql p < ql c).
    { destruct (Z.eq_dec (ql p) (ql c)) as [E|E]; [|lia]. exfalso. apply Ne. symmetry. apply (within_eq d); auto. }
    destruct (anc_child d p c Wp Wc W) as (A & B); auto. eauto.
  Qed.

  Lemma good_parent orig a b p : Forall (wf d) orig -> wf d p -> ql p < 29 -> P p = true ->
    (forall c, In c (childrenv d p) -> good orig a b c) -> good orig a b p.
  Proof.
    intros F Wp Lp Pp G. pose proof (tiles_children d p Wp Lp) as TC. rewrite Forall_forall in F.
    assert (G0 := G _ (in_childrenv d p 0 ltac:(destruct d; cbn; lia))).
    assert (GL := G _ (in_childrenv d p (children d - 1) ltac:(destruct d; cbn; lia))).
    assert (P0 : qpos d (child d p 0) = qpos d p).
    { rewrite (child_pos d p 0); auto; [lia|destruct d; cbn; lia]. }
    assert (PL : qend d (child d p (children d - 1)) = qend d p).
    { pose proof (child_wf d p (children d - 1) Wp Lp ltac:(destruct d; cbn; lia)) as (_ & Lc & _).
      unfold qend. rewrite !qsize_psize, Lc, (child_pos d p); auto; [|destruct d; cbn; lia].
      rewrite (psize_child d (ql p)) by lia. lia. }
    destruct G0 as (W0 & A0 & _ & O0 & _). destruct GL as (_ & _ & BL & _).
    split; [auto|]. split; [lia|]. split; [lia|]. split.
    - intros q I O1 O2. destruct (nested d p q Wp (F q I)) as [N|N]; auto.
      pose proof (child_within d p 0 Wp Lp ltac:(destruct d; cbn; lia)) as CW.
      pose proof (size_pos d _ W0). unfold within in N, CW.
      specialize (O0 q I ltac:(lia) ltac:(lia)). unfold within in *. lia.
    - intros c q Wc W1 I W2 Ne. destruct (quad_eq_dec c p) as [->|Np]; [auto|].
      destruct (child_of_within p c Wp Lp Wc W1 Np) as (i & Hi & Wi).
      destruct (G _ (in_childrenv d p i Hi)) as (_ & _ & _ & _ & H). apply (H c q); auto.
  Qed.

  Definition allgood (orig : list quad) (a b : Z) (L : list (leaf D)) : Prop := forall r, In r (map fst L) -> good orig a b r.

  Lemma allgood_step orig a b s L w : tiles d a b orig -> tiled a b L -> allgood orig a b L -> (w + CH <= length L)%nat ->
    let '(_, L', w') := astep s L w in allgood orig a b L'.
  Proof.
    intros To T G H.
    pose proof (astep_cases d St D init_fn coarsen_fn replace_fn recursive orphans jt a b s L w T H) as C.
    destruct (astep s L w) as ((s1, L1), w1). cbv zeta in C.
    destruct C as [(p & pv & Wp & Lp & M & Ep & -> & Hy & Ew)|(M & -> & Hno)].
    2:{ unfold allgood. rewrite M. exact G. }
    intros r I. rewrite map_app in I. cbn [map] in I. apply in_app_or in I.
    assert (EL : map fst L = map fst (firstn w L) ++ map fst (firstn CH (skipn w L)) ++ map fst (skipn (w + CH) L)).
    { rewrite <- !map_app, skipn_plus, firstn_skipn, firstn_skipn. reflexivity. }
    destruct I as [I|[I|I]].
    - apply G. rewrite EL. apply in_or_app. auto.
    - rewrite <- I, Ep. apply good_parent; auto.
      + eapply tiles_wf; eauto.
      + rewrite <- (HP s p (firstn CH (skipn w L))); auto.
      + intros c Ic. apply G. rewrite EL. apply in_or_app. right. apply in_or_app. left. rewrite M. exact Ic.
    - apply G. rewrite EL. apply in_or_app. right. apply in_or_app. auto.
  Qed.

  (** the leaves of a good tiling without acceptable family are the maximal good quadrants *)
  Lemma maximal orig a b L : tiles d a b orig -> tiles d a b L -> (forall r, In r L -> good orig a b r) ->
    (forall p, wf d p -> ql p < 29 -> (forall c, In c (childrenv d p) -> In c L) -> P p = false) ->
    forall r, In r L <-> good orig a b r /\ (forall p, good orig a b p -> within d p r -> p = r).
  Proof.
    intros To TL G FX.
    pose proof (tiles_wf _ _ _ _ To) as Fo. rewrite Forall_forall in Fo.
    pose proof (tiles_wf _ _ _ _ TL) as FL. rewrite Forall_forall in FL.
    assert (MAX : forall r p, In r L -> good orig a b p -> within d p r -> p = r).
    { intros r p Ir Gp Wpr. destruct (quad_eq_dec p r) as [E|Ne]; [exact E|]. exfalso.
      destruct Gp as (Wp & Ap & Bp & Op & Hp).
      (* a deepest leaf in p *)
      assert (DEEP : exists r0, In r0 L /\ within d p r0 /\ p <> r0 /\
         (forall r', In r' L -> within d p r' -> ql r' <= ql r0)).
      { set (Lp := filter (withinb d p) L).
        assert (ILp : forall x, In x Lp <-> In x L /\ within d p x).
        { intros x. unfold Lp. rewrite filter_In, withinb_iff. reflexivity. }
        assert (EX : exists r0, In r0 Lp /\ forall r', In r' Lp -> ql r' <= ql r0).
        { assert (I0 : In r Lp) by (apply ILp; auto). clear - I0.
          induction Lp as [|x l IH]; [destruct I0|]. destruct l as [|y l].
          - exists x. split; [left; reflexivity|]. intros r' [<-|[]]. lia.
          - destruct I0 as [<-|I0].
            + clear IH. revert x. induction (y :: l) as [|z l' IHl]; intros x.
              * exists x. split; [left; reflexivity|]. intros r' [<-|[]]. lia.
              * destruct (IHl z) as (m & Im & Hm). destruct (Z_le_gt_dec (ql x) (ql m)) as [Q|Q].
                -- exists m. split; [right; exact Im|]. intros r' [<-|I]; [lia|apply Hm; exact I].
                -- exists x. split; [left; reflexivity|]. intros r' [<-|I]; [lia|]. specialize (Hm r' I). lia.
            + destruct (IH I0) as (m & Im & Hm). destruct (Z_le_gt_dec (ql x) (ql m)) as [Q|Q].
              * exists m. split; [right; exact Im|]. intros r' [<-|I]; [lia|apply Hm; exact I].
              * exists x. split; [left; reflexivity|]. intros r' [<-|I]; [lia|]. specialize (Hm r' I). lia. }
        destruct EX as (r0 & I0 & H0). apply ILp in I0. destruct I0 as (I0 & W0). exists r0.
        split; [auto|]. split; [auto|]. split.
        - intros <-. apply Ne. pose proof (size_pos d r (FL r Ir)). unfold within in Wpr.
          apply (tiles_disjoint L a b); auto; lia.
        - intros r' I' W'. apply H0. apply ILp. auto. }
      destruct DEEP as (r0 & I0 & W0 & N0 & H0).
      pose proof (FL r0 I0) as Wr0.
      pose proof (within_level d p r0 Wp Wr0 W0).
      assert (LT : ql p < ql r0).
      { destruct (Z.eq_dec (ql p) (ql r0)) as [E|E]; [|lia]. exfalso. apply N0. apply (within_eq d); auto. }
      pose proof (wf_level _ _ Wp). pose proof (wf_level _ _ Wr0).
      destruct (parent_wf d r0 Wr0 ltac:(lia)) as (Wpr0 & Lpr0 & _).
      set (pr := parent d r0) in *.
      assert (PC : child d pr (child_id d r0) = r0) by (apply parent_child; auto; lia).
      assert (Wpc : within d pr r0).
      { rewrite <- PC. apply child_within; auto; [lia|]. apply child_id_range. auto. }
      assert (Wppr : within d p pr).
      { destruct (nested d p pr Wp Wpr0) as [Q|Q]; auto; pose proof (size_pos d r0 Wr0); unfold within in *; try lia.
        pose proof (within_level d pr p Wpr0 Wp ltac:(unfold within; lia)).
        rewrite (within_eq d pr p Wpr0 Wp ltac:(unfold within; lia) ltac:(lia)). lia. }
      assert (OV : forall r', In r' L -> qpos d r' < qend d pr -> qpos d pr < qend d r' -> within d pr r' /\ ql r' = ql pr + 1).
      { intros r' I' O1 O2. pose proof (FL r' I') as Wr'.
        assert (X : within d pr r' /\ r' <> pr).
        { assert (NE : ~ within d r' pr).
          { intros Q. assert (r' = r0).
            { pose proof (size_pos d r0 Wr0). unfold within in *. apply (tiles_disjoint L a b); auto; lia. }
            subst r'. pose proof (within_level d r0 pr Wr0 Wpr0 Q). lia. }
          destruct (nested d pr r' Wpr0 Wr' O2 O1) as [Q|Q]; [|contradiction].
          split; [auto|]. intros ->. apply NE. split; lia. }
        destruct X as (X1 & X2). split; [auto|].
        pose proof (within_level d pr r' Wpr0 Wr' X1).
        assert (ql pr <> ql r') by (intros E; apply X2; symmetry; apply (within_eq d); auto).
        specialize (H0 r' I' ltac:(unfold within in *; lia)). lia. }
      assert (FAM : forall c, In c (childrenv d pr) -> In c L).
      { intros c Ic. destruct (childrenv_in d pr c Ic) as (i & Hi & ->).
        pose proof (child_wf d pr i Wpr0 ltac:(lia) Hi) as (Wc & Lc & _).
        pose proof (child_within d pr i Wpr0 ltac:(lia) Hi) as Wci.
        pose proof (size_pos d _ Wc).
        assert (Q : a <= qpos d (child d pr i) < b) by (unfold within in *; lia).
        apply (tiles_cover d L a b) in Q; auto. destruct Q as (r' & I' & Q).
        destruct (OV r' I') as (X1 & X2); [unfold within in *; lia|unfold within in *; lia|].
        assert (E : child d pr i = r'); [|rewrite E; auto].
        pose proof (FL r' I') as Wr'.
        destruct (nested d (child d pr i) r' Wc Wr') as [Y|Y]; try lia.
        - apply (within_eq d); auto; lia.
        - symmetry. apply (within_eq d); auto; lia. }
      assert (PF : P pr = false) by (apply FX; auto; lia).
      (* some original leaf lies in r0 *)
      assert (EX : exists q, In q orig /\ within d r0 q).
      { destruct (G r0 I0) as (_ & A0 & B0 & O0 & _). pose proof (size_pos d r0 Wr0).
        assert (Q : a <= qpos d r0 < b) by lia. apply (tiles_cover d orig a b) in Q; auto.
        destruct Q as (q & Iq & Q). exists q. split; [auto|]. apply O0; auto; lia. }
      destruct EX as (q & Iq & Wq).
      assert (P pr = true); [|congruence].
      apply (Hp pr q); auto; [eapply within_trans; eauto|].
      intros E. pose proof (within_level d r0 q Wr0 (Fo q Iq) Wq). rewrite <- E in *. lia. }
    intros r. split.
    - intros I. split; [auto|]. intros p Gp W. eauto.
    - intros (Gr & M). pose proof Gr as (Wr & A & B & _). pose proof (size_pos d r Wr).
      assert (Q : a <= qpos d r < b) by lia. apply (tiles_cover d L a b) in Q; auto. destruct Q as (r' & I' & Q).
      pose proof (FL r' I') as Wr'.
      destruct (nested d r r' Wr Wr') as [X|X]; try lia.
      + rewrite (MAX r' r I' Gr X). auto.
      + rewrite <- (M r' (G r' I') X). auto.
  Qed.
End C.
