(** * Lemmas about p4est_inflate *)

From Coq Require Import ZArith List Bool Lia Arith ZifyBool Sorting.Sorted.
From Verif Require Import Quad Spec Interval QuadLemmas Search Adapt AdaptSpec ListLemmas RefineLemmas Tiles Partition PartLemmas PartTrees PartRecv PartGlue PartFinal PartShip Comm CommLemmas OwnerLemmas PropertiesOwner.
From Verif Require Import Transfer TransferLemmas Forest ForestSpec ForestLemmas ForestAdapt ForestPart Inflate.
Import ListNotations.
Open Scope Z_scope.

Lemma to_i8_small x : 0 <= x < 128 -> to_i8 x = x.
Proof. intros H. unfold to_i8. rewrite Z.mod_small by lia. lia. Qed.

Lemma zlen_map {A B} (f : A -> B) l : zlen (map f l) = zlen l.
Proof. unfold zlen. rewrite map_length. reflexivity. Qed.

Lemma last_cons_any {A} (l : list A) : forall y x, last (y :: l) x = last l y.
Proof. induction l as [|a l IH]; intros y x; [reflexivity|]. change (last (y :: a :: l) x) with (last (a :: l) x). rewrite !IH. reflexivity. Qed.

(** ** leaves in trees before t *)
Section Count.
  Context {A : Type}.
  Local Notation lab := (list (Z * A)).

  Definition below (t : Z) (l : lab) : Z := zlen (filter (fun x => fst x <? t) l).
  Definition inside (t : Z) (l : lab) : Z := zlen (ofl t l).

  Lemma below_app t l l' : below t (l ++ l') = below t l + below t l'.
  Proof. unfold below, zlen. rewrite filter_app, app_length. lia. Qed.
  Lemma inside_app t l l' : inside t (l ++ l') = inside t l + inside t l'.
  Proof. unfold inside, zlen. rewrite ofl_app, app_length. lia. Qed.
  Lemma below_all t l : (forall x, In x l -> fst x < t) -> below t l = zlen l.
  Proof.
    intros H. unfold below, zlen. f_equal. induction l as [|x l IH]; [reflexivity|]. cbn [filter]. pose proof (H x (or_introl eq_refl)). replace (fst x <? t) with true by lia.
    cbn [length]. f_equal. apply IH. intros y I. apply H. right. exact I.
  Qed.
  Lemma below_none t l : (forall x, In x l -> t <= fst x) -> below t l = 0.
  Proof.
    intros H. unfold below, zlen. induction l as [|x l IH]; [reflexivity|]. cbn [filter]. pose proof (H x (or_introl eq_refl)). replace (fst x <? t) with false by lia.
    apply IH. intros y I. apply H. right. exact I.
  Qed.
  Lemma below_le t l : 0 <= below t l <= zlen l.
  Proof. unfold below, zlen. induction l as [|x l IH]; cbn [filter length]; [lia|]. destruct (fst x <? t); cbn [length]; lia. Qed.
  Lemma below_succ t l : below (t + 1) l = below t l + inside t l.
  Proof.
    unfold below, inside, ofl, zlen. rewrite map_length. induction l as [|x l IH]; [reflexivity|]. cbn [filter].
    destruct (fst x <? t) eqn:C1, (fst x <? t + 1) eqn:C2, (fst x =? t) eqn:C3; cbn [length]; lia.
  Qed.
  Lemma below_mono t u l : t <= u -> below t l <= below u l.
  Proof. intros H. unfold below, zlen. induction l as [|x l IH]; cbn [filter]; [lia|]. destruct (fst x <? t) eqn:C1, (fst x <? u) eqn:C2; cbn [length]; lia. Qed.
  Lemma inside_nonneg t l : 0 <= inside t l.
  Proof. unfold inside, zlen. lia. Qed.
  Lemma inside_none t l : (forall x, In x l -> fst x <> t) -> inside t l = 0.
  Proof. intros H. unfold inside. rewrite ofl_none by exact H. reflexivity. Qed.
  Lemma inside_all t l : (forall x, In x l -> fst x = t) -> inside t l = zlen l.
  Proof.
    intros H. pose proof (below_succ t l) as B. rewrite below_all in B by (intros x I; apply H in I; lia). rewrite below_none in B by (intros x I; apply H in I; lia). lia.
  Qed.

  (** an array with the number of leaves in each tree as differences *)
  Lemma pertree_below T (L : lab) pt : (forall x, In x L -> 0 <= fst x) -> zget pt 0 = Some 0 ->
    (forall t, 0 <= t < T -> exists a b, zget pt t = Some a /\ zget pt (t + 1) = Some b /\ b - a = inside t L) ->
    forall t, 0 <= t <= T -> zget pt t = Some (below t L).
  Proof.
    intros P0 Z0 ST. assert (G : forall n, Z.of_nat n <= T -> zget pt (Z.of_nat n) = Some (below (Z.of_nat n) L)).
    { induction n as [|n IH]; intros H; [cbn [Z.of_nat]; rewrite Z0, below_none by exact P0; reflexivity|].
      destruct (ST (Z.of_nat n) ltac:(lia)) as (a & b & E1 & E2 & E3). replace (Z.of_nat (S n)) with (Z.of_nat n + 1) by lia.
      rewrite IH in E1 by lia. rewrite E2, below_succ. injection E1 as <-. f_equal. lia. }
    intros t Ht. replace t with (Z.of_nat (Z.to_nat t)) by lia. apply G. lia.
  Qed.

  Lemma pertree_search T (L : lab) pt k key : (forall t, 0 <= t <= T -> zget pt t = Some (below t L)) ->
    0 <= k < T -> 0 <= key -> below 0 L <= 0 -> key < below T L -> below k L <= key < below (k + 1) L -> bsearch_range key pt (Z.to_nat T) 0 = k.
  Proof.
    intros PT Hk K0 B0 KT Hb. destruct (bsearch_range_any key (Z.to_nat T) pt 0 (fun n => below (Z.of_nat n) L)) as (p & E & H1 & H2).
    - intros n Hn. rewrite <- (PT (Z.of_nat n)) by lia. rewrite zget_nth by lia. rewrite Nat2Z.id. reflexivity.
    - cbn beta. replace (Z.of_nat (Z.to_nat T)) with T by lia. change (Z.of_nat 0) with 0. pose proof (below_le 0 L). lia.
    - rewrite E. cbn beta in H2. replace (Z.of_nat (S p)) with (Z.of_nat p + 1) in H2 by lia.
      destruct (Z.lt_trichotomy (Z.of_nat p) k) as [C|[C|C]]; [exfalso|lia|exfalso].
      + pose proof (below_mono (Z.of_nat p + 1) k L ltac:(lia)). lia.
      + pose proof (below_mono (k + 1) (Z.of_nat p) L ltac:(lia)). lia.
  Qed.
End Count.

Section Loop.
  Variable d : dim.
  Variables (St D : Type).
  Local Notation leaf := (quad * D)%type.
  Variable T : Z.
  Variable nodata : D.
  Variable b : bool.            (* with user data *)

  Definition wordsof (l : list leaf) : list Z := flat_map (fun lf => words d (fst lf)) l.
  Definition dataof (l : list leaf) : option (list D) := if b then Some (map snd l) else None.
  (** what the array can hold and the function can count *)
  Definition rdq (q : quad) : Prop := 0 <= ql q <= MAXLEVEL /\ (d = D2 -> qz q = 0).
  Lemma wf_rdq q : wf d q -> rdq q.
  Proof. intros (L & _ & _ & Z0). split; [unfold MAXLEVEL; lia|]. intros E. destruct d; [exact Z0|discriminate]. Qed.
  Definition good (l : list leaf) : Prop := Forall (fun lf => rdq (fst lf)) l /\ (b = false -> Forall (fun lf => snd lf = nodata) l).

  Lemma good_app l l' : good (l ++ l') <-> good l /\ good l'.
  Proof. unfold good. rewrite !Forall_app. destruct b; intuition discriminate. Qed.

  Lemma read_quad_words q qa : rdq q -> read_quad d (words d q ++ qa) = Some (q, qa).
  Proof.
    intros W. unfold read_quad, words. destruct W as (L & Z0). unfold MAXLEVEL in L. destruct q as [x y z l]. cbn [ql qx qy qz] in *.
    destruct d; cbn [is3 app]; rewrite to_i8_small by lia; [rewrite (Z0 eq_refl)|]; reflexivity.
  Qed.

  Lemma read_leaves_spec : forall l r pl mx, 0 <= mx -> good (l ++ r) -> exists pl', read_leaves d D nodata (length l) (wordsof (l ++ r)) (dataof (l ++ r)) pl mx = Some (l, wordsof r, dataof r, pl', Z.max mx (maxlev l)) /\
    forall i, pl' i = pl i + nlev i l.
  Proof.
    induction l as [|(q, x) l IH]; intros r pl mx M G.
    - exists pl. split; [|intros i; unfold nlev; cbn; lia]. cbn [length read_leaves app]. unfold maxlev. cbn [fold_right]. rewrite Z.max_l by lia. reflexivity.
    - change ((q, x) :: l) with ([(q, x)] ++ l) in G. rewrite <- app_assoc in G. apply good_app in G. destruct G as (G1 & G2).
      destruct G1 as (W & Dt). inversion W as [|? ? W1 _]; subst. cbn [fst] in W1.
      destruct (IH r (bump pl (ql q) 1) (Z.max mx (ql q)) ltac:(lia) G2) as (pl' & E & Hpl). exists pl'. split.
      + cbn [length read_leaves app]. change (wordsof ((q, x) :: l ++ r)) with (words d q ++ wordsof (l ++ r)). rewrite read_quad_words by exact W1.
        assert (ED : read_data D nodata (dataof ((q, x) :: l ++ r)) = Some (x, dataof (l ++ r))).
        { unfold dataof. destruct b eqn:B; [reflexivity|]. cbn [read_data]. specialize (Dt eq_refl). inversion Dt as [|? ? D1 _]; subst. cbn [snd] in D1. rewrite D1. reflexivity. }
        rewrite ED. destruct W1 as (L & _). unfold MAXLEVEL in *. replace ((0 <=? ql q) && (ql q <=? 30)) with true by lia. rewrite E. unfold maxlev. cbn [fold_right fst]. do 2 f_equal. fold (maxlev l). lia.
      + intros i. rewrite Hpl. unfold bump, nlev. cbn [filter fst]. rewrite (Z.eqb_sym i). destruct (ql q =? i); cbn [length]; lia.
  Qed.

  Section Trees.
    Variables (pertree : list Z) (f l sk : Z) (pt : Z -> Z) (g : Z -> list leaf).
    Hypothesis HP : forall t, 0 <= t <= T -> zget pertree t = Some (pt t).
    Hypothesis HG : forall t, 0 <= t < T -> (f <= t <= l <-> g t <> []).
    Hypothesis HFL : f <= l \/ f < 0.
    Hypothesis HM : forall t, 0 <= t < T -> f <= t <= l -> Z.min (pt (t + 1) - pt t - (if t =? f then sk else 0)) (zlen (loc_from t (Z.to_nat (T - t)) g)) = zlen (g t).

    Lemma inflate_trees_spec : forall n jt off skip trees, 0 <= jt -> jt + Z.of_nat n = T -> skip = (if jt <=? f then sk else 0) ->
      good (map snd (loc_from jt n g)) ->
      exists trees', inflate_trees d D nodata pertree f l n jt off (zlen (loc_from jt n g)) skip (wordsof (map snd (loc_from jt n g))) (dataof (map snd (loc_from jt n g))) trees = Some trees' /\
        (forall u, ~ jt <= u < T -> trees' u = trees u) /\
        (forall u, jt <= u < T -> t_leaves D (ft D (trees' u)) = g u /\ t_off D (ft D (trees' u)) = off + zlen (loc_from jt (Z.to_nat (u - jt)) g) /\
           (forall i, t_pl D (ft D (trees' u)) i = nlev i (g u)) /\ t_max D (ft D (trees' u)) = maxlev (g u) /\
           descs_ok d D (ft_fd D (trees' u)) (ft_ld D (trees' u)) (g u)).
    Proof.
      induction n as [|n IH]; intros jt off skip trees H0 HT HS GD.
      - exists trees. split; [reflexivity|]. split; [reflexivity|intros; lia].
      - cbn [inflate_trees loc_from] in *. rewrite map_app, map_map in *. cbn [snd] in *. rewrite map_id in *.
        assert (LC : forall u x, jt < u -> zlen (loc_from jt (Z.to_nat (u - jt)) g) + x = zlen (g jt) + (zlen (loc_from (jt + 1) (Z.to_nat (u - (jt + 1))) g) + x)).
        { intros u x Hu. replace (Z.to_nat (u - jt)) with (S (Z.to_nat (u - (jt + 1)))) by lia. cbn [loc_from]. rewrite zlen_app, zlen_map. lia. }
        rewrite zlen_app, zlen_map.
        destruct ((jt >=? f) && (jt <=? l)) eqn:C.
        + rewrite (HP jt) by lia. rewrite (HP (jt + 1)) by lia. pose proof (HM jt ltac:(lia) ltac:(lia)) as M.
          assert (ES : skip = (if jt =? f then sk else 0)) by (rewrite HS; destruct (jt <=? f) eqn:A1, (jt =? f) eqn:A2; lia).
          rewrite <- ES in M. replace (Z.to_nat (T - jt)) with (S n) in M by lia. cbn [loc_from] in M. rewrite zlen_app, zlen_map in M.
          rewrite M. replace (zlen (g jt) <? 0) with false by (unfold zlen; lia).
          replace (Z.to_nat (zlen (g jt))) with (length (g jt)) by (unfold zlen; lia).
          destruct (read_leaves_spec (g jt) (map snd (loc_from (jt + 1) n g)) (fun _ => 0) 0 ltac:(lia) GD) as (pl & E & Hpl). rewrite E.
          assert (NE : g jt <> []) by (apply HG; lia). destruct (g jt) as [|lf r] eqn:EG; [congruence|]. cbv beta iota. rewrite <- EG in *.
          replace (zlen (g jt) + zlen (loc_from (jt + 1) n g) - zlen (g jt)) with (zlen (loc_from (jt + 1) n g)) by lia.
          apply good_app in GD. destruct GD as (_ & GD).
          edestruct (IH (jt + 1) (off + zlen (g jt)) 0) as (trees' & E' & O & I); [lia|lia|destruct (jt + 1 <=? f) eqn:A; lia|exact GD|].
          exists trees'. split; [exact E'|]. split.
          * intros u Hu. rewrite O by lia. unfold upd. replace (u =? jt) with false by lia. reflexivity.
          * intros u Hu. destruct (Z.eq_dec u jt) as [->|N].
            -- rewrite O by lia. unfold upd. rewrite Z.eqb_refl. cbn [ft ft_fd ft_ld t_leaves t_off t_pl t_max]. rewrite Z.sub_diag. cbn [Z.to_nat loc_from].
               split; [reflexivity|]. split; [unfold zlen; cbn; lia|]. split; [intros i; rewrite Hpl; lia|]. split; [pose proof (maxlev_nonneg (g jt)); lia|]. rewrite EG. cbn [descs_ok]. auto.
            -- destruct (I u ltac:(lia)) as (I1 & I2 & I3). split; [exact I1|]. split; [|exact I3]. rewrite I2. pose proof (LC u 0 ltac:(lia)). lia.
        + assert (EG : g jt = []) by (destruct (g jt) eqn:EG; [reflexivity|]; exfalso; assert (f <= jt <= l) by (apply HG; [lia|rewrite EG; discriminate]); lia).
          rewrite EG in *. cbn [app map] in *.
          change (zlen (@nil leaf)) with 0. rewrite Z.add_0_l.
          edestruct (IH (jt + 1) off skip) as (trees' & E' & O & I); [lia|lia| |exact GD|].
          { rewrite HS. destruct (jt <=? f) eqn:A1, (jt + 1 <=? f) eqn:A2; lia. }
          exists trees'. split; [exact E'|]. split.
          * intros u Hu. rewrite O by lia. unfold upd. replace (u =? jt) with false by lia. reflexivity.
          * intros u Hu. destruct (Z.eq_dec u jt) as [->|N].
            -- rewrite O by lia. unfold upd. rewrite Z.eqb_refl. cbn [ft ft_fd ft_ld t_leaves t_off t_pl t_max]. rewrite Z.sub_diag. cbn [Z.to_nat loc_from].
               rewrite EG. split; [reflexivity|]. split; [unfold zlen; cbn; lia|]. split; [reflexivity|]. split; [reflexivity|]. split; reflexivity.
            -- destruct (I u ltac:(lia)) as (I1 & I2 & I3). split; [exact I1|]. split; [|exact I3]. rewrite I2. pose proof (LC u 0 ltac:(lia)) as LC0. change (zlen (@nil leaf)) with 0 in LC0. lia.
    Qed.
  End Trees.

  (** ** one rank: its part [S] of the sequence of leaves [L] *)
  Section Rank.
    Variables (L : list (Z * leaf)) (pertree : list Z).
    Hypothesis HS : lsorted L.
    Hypothesis HL : forall x, In x L -> 0 <= fst x < T.
    Hypothesis HN : forall t, 0 <= t < T -> exists x, In x L /\ fst x = t.
    Hypothesis HP : forall t, 0 <= t <= T -> zget pertree t = Some (below t L).
    Variables (A S C : list (Z * leaf)).
    Hypothesis HA : L = A ++ S ++ C.

    Lemma sorted_parts : (forall x y, In x A -> In y S -> fst x <= fst y) /\ (forall x y, In x S -> In y C -> fst x <= fst y) /\ (forall x y, In x A -> In y C -> fst x <= fst y) /\ lsorted S.
    Proof.
      pose proof HS as H. rewrite HA in H. apply lsorted_app in H. destruct H as (_ & H2 & H3). apply lsorted_app in H2. destruct H2 as (H4 & H5 & H6).
      split; [intros x y Ix Iy; apply H3; [exact Ix|apply in_or_app; left; exact Iy]|]. split; [exact H6|]. split; [intros x y Ix Iy; apply H3; [exact Ix|apply in_or_app; right; exact Iy]|exact H4].
    Qed.

    Lemma rank_sizes f l : (exists x, In x S /\ fst x = f) -> (exists x, In x S /\ fst x = l) -> (forall x, In x S -> f <= fst x <= l) ->
      forall t, 0 <= t < T -> f <= t <= l ->
      Z.min (below (t + 1) L - below t L - (if t =? f then zlen A - below f L else 0)) (zlen (loc_from t (Z.to_nat (T - t)) (fun t => ofl t S))) = zlen (ofl t S).
    Proof.
      intros (xf & Ixf & Exf) (xl & Ixl & Exl) HSl t Ht Hfl. destruct sorted_parts as (PAS & PSC & PAC & SS).
      assert (Hlab : forall x, In x S -> 0 <= fst x < T) by (intros x I; apply HL; rewrite HA; apply in_or_app; right; apply in_or_app; left; exact I).
      assert (EI : below (t + 1) L - below t L = inside t A + inside t S + inside t C) by (rewrite below_succ; rewrite HA, !inside_app; lia).
      assert (EA : inside t A = (if t =? f then zlen A - below f L else 0)).
      { destruct (t =? f) eqn:Ef.
        - assert (t = f) by lia. subst t. rewrite HA, !below_app. rewrite (below_none f S), (below_none f C).
          + rewrite !Z.add_0_r. pose proof (below_succ f A) as B. rewrite (below_all (f + 1) A) in B; [lia|]. intros x I. pose proof (PAS x xf I Ixf). lia.
          + intros x I. pose proof (PSC xf x Ixf I). lia.
          + intros x I. apply HSl in I. lia.
        - apply inside_none. intros x I. pose proof (PAS x xf I Ixf). lia. }
      rewrite EI, <- EA. replace (inside t A + inside t S + inside t C - inside t A) with (inside t S + inside t C) by lia.
      replace (Z.to_nat (T - t)) with (Datatypes.S (Z.to_nat (T - t - 1))) by lia. cbn [loc_from]. rewrite zlen_app, zlen_map. fold (inside t S).
      destruct (Z.eq_dec (inside t C) 0) as [E0|N0].
      - rewrite E0. unfold zlen. lia.
      - assert (EN : exists y, In y C /\ fst y = t).
        { apply ofl_in. intros E. apply N0. unfold inside. rewrite E. reflexivity. }
        destruct EN as (y & Iy & Ey). rewrite loc_from_nil.
        + pose proof (inside_nonneg t C). change (zlen (@nil (Z * leaf))) with 0. lia.
        + intros u Hu. apply ofl_none. intros x Ix. pose proof (PSC x y Ix Iy). lia.
    Qed.

    Lemma inflate_proc_spec gfq rank (s : St) : zget gfq rank = Some (zlen A) -> zget gfq (rank + 1) = Some (zlen A + zlen S) -> good (map snd S) ->
      exists p, inflate_proc d St D T nodata gfq pertree rank (s, wordsof (map snd S), dataof (map snd S)) = Some p /\ proc_ok d St D T p /\
        pr_s _ _ p = s /\ (forall t, lvs St D p t = if (0 <=? t) && (t <? T) then ofl t S else []).
    Proof.
      intros G1 G2 GD. destruct sorted_parts as (PAS & PSC & PAC & SS).
      assert (Hlab : forall x, In x S -> 0 <= fst x < T) by (intros x I; apply HL; rewrite HA; apply in_or_app; right; apply in_or_app; left; exact I).
      assert (ESp : loc_from 0 (Z.to_nat T) (fun t => ofl t S) = S) by (apply lsorted_split; [exact SS|intros x I; apply Hlab in I; lia]).
      assert (FIN : forall f l trees', (f = -1 /\ l = -2 /\ S = [] \/ 0 <= f <= l /\ l < T) -> (forall t, 0 <= t < T -> (f <= t <= l <-> ofl t S <> [])) ->
        (forall u, ~ 0 <= u < T -> trees' u = empty_tree D) ->
        (forall u, 0 <= u < T -> t_leaves D (ft D (trees' u)) = ofl u S /\ t_off D (ft D (trees' u)) = 0 + zlen (loc_from 0 (Z.to_nat (u - 0)) (fun t => ofl t S)) /\
           (forall i, t_pl D (ft D (trees' u)) i = nlev i (ofl u S)) /\ t_max D (ft D (trees' u)) = maxlev (ofl u S) /\
           descs_ok d D (ft_fd D (trees' u)) (ft_ld D (trees' u)) (ofl u S)) ->
        let p := mkproc St D s f l (zlen S) trees' in
        proc_ok d St D T p /\ pr_s _ _ p = s /\ (forall t, lvs St D p t = if (0 <=? t) && (t <? T) then ofl t S else [])).
      { intros f l trees' FL IFF O I p.
        assert (LV : forall t, lvs St D p t = if (0 <=? t) && (t <? T) then ofl t S else []).
        { intros t. unfold lvs, p. cbn [pr_trees]. destruct ((0 <=? t) && (t <? T)) eqn:Ct; [apply I; lia|]. rewrite O by lia. reflexivity. }
        assert (BEF : forall t, 0 <= t <= T -> lvs_before St D p t = zlen (loc_from 0 (Z.to_nat t) (fun t => ofl t S))).
        { intros t Ht. unfold lvs_before. f_equal. apply loc_from_ext. intros u Hu. rewrite LV. replace ((0 <=? u) && (u <? T)) with true by lia. reflexivity. }
        split; [|split; [reflexivity|exact LV]]. split; [|split].
        - destruct FL as [(F1 & F2 & F3)|(F1 & F2)]; [left|right]; cbn [rk_of k_first k_last p pr_first pr_last].
          + split; [exact F1|]. split; [exact F2|]. intros t. change (lvs St D p t = []). rewrite LV. destruct ((0 <=? t) && (t <? T)); [|reflexivity]. rewrite F3. reflexivity.
          + split; [exact F1|]. split; [exact F2|]. intros t. change (lvs St D p t <> [] <-> f <= t <= l). rewrite LV. destruct ((0 <=? t) && (t <? T)) eqn:Ct; [symmetry; apply IFF; lia|].
            split; [congruence|lia].
        - change (pr_num St D p) with (zlen S). destruct (Z_le_gt_dec 0 T) as [HT|HT]; [rewrite BEF by lia; rewrite ESp; reflexivity|].
          unfold lvs_before. replace (Z.to_nat T) with 0%nat in * by lia. cbn [loc_from] in *. rewrite <- ESp. reflexivity.
        - intros t Ht. cbv zeta. rewrite BEF by lia. rewrite LV. replace ((0 <=? t) && (t <? T)) with true by lia. unfold p. cbn [pr_trees].
          destruct (I t Ht) as (_ & I2 & I3 & I4 & I5). rewrite Z.add_0_l, Z.sub_0_r in I2. split; [exact I2|]. split; [exact I3|]. split; [exact I4|exact I5]. }
      unfold inflate_proc. rewrite G1, G2. replace (zlen A + zlen S - zlen A) with (zlen S) by lia.
      destruct (zlen S >? 0) eqn:CS.
      - destruct S as [|x0 S'] eqn:ES0; [discriminate CS|]. rewrite <- ES0 in *.
        set (f := fst x0). set (xl := List.last S' x0). set (l := fst xl).
        assert (Ix0 : In x0 S) by (rewrite ES0; left; reflexivity).
        assert (ELs : exists S0, S = S0 ++ [xl]).
        { rewrite ES0. unfold xl. clear. revert x0. induction S' as [|y S' IH]; intros x0; [exists []; reflexivity|].
          destruct (IH y) as (S0 & E). exists (x0 :: S0). cbn [app]. rewrite (last_cons_any S' y x0). rewrite E. reflexivity. }
        destruct ELs as (S0 & ELs). assert (Ixl : In xl S) by (rewrite ELs; apply in_or_app; right; left; reflexivity).
        assert (RG : forall x, In x S -> f <= fst x <= l).
        { intros x I. split.
          - rewrite ES0 in SS, I. inversion SS as [|? ? _ FA]; subst. rewrite Forall_forall in FA. destruct I as [<-|I]; [unfold f; lia|]. apply FA in I. unfold f. exact I.
          - rewrite ELs in SS, I. apply lsorted_app in SS. destruct SS as (_ & _ & H). apply in_app_or in I. destruct I as [I|[<-|[]]]; [|unfold l; lia]. apply (H x xl I). left. reflexivity. }
        assert (FL : 0 <= f <= l /\ l < T) by (pose proof (Hlab x0 Ix0); pose proof (Hlab xl Ixl); pose proof (RG x0 Ix0); unfold f, l in *; lia).
        assert (BF : below f L = below f A).
        { rewrite HA, !below_app, (below_none f S), (below_none f C); [lia|intros x I; apply (PSC x0 x Ix0) in I; exact I|intros x I; apply RG in I; lia]. }
        assert (ZS : 0 < zlen S) by lia.
        assert (K1 : bsearch_range (zlen A) pertree (Z.to_nat T) 0 = f).
        { apply (pertree_search T L); [exact HP|lia|unfold zlen; lia| |rewrite (below_all T L) by (intros x I; apply HL in I; lia); rewrite HA, !zlen_app; unfold zlen in *; lia|].
          - rewrite below_none; [lia|intros x I; apply HL in I; lia].
          - rewrite BF. pose proof (below_le f A). split; [lia|]. rewrite HA, !below_app. rewrite (below_all (f + 1) A) by (intros x I; apply (fun H => PAS x x0 H Ix0) in I; unfold f; lia).
            assert (1 <= below (f + 1) S).
            { rewrite ES0. change (x0 :: S') with ([x0] ++ S'). rewrite below_app, (below_all (f + 1) [x0]) by (intros x [<-|[]]; unfold f; lia). pose proof (below_le (f + 1) S'). change (zlen [x0]) with 1. lia. }
            pose proof (below_le (f + 1) C). lia. }
        assert (K2 : bsearch_range (zlen A + zlen S - 1) pertree (Z.to_nat T) 0 = l).
        { apply (pertree_search T L); [exact HP|lia|unfold zlen in *; lia| |rewrite (below_all T L) by (intros x I; apply HL in I; lia); rewrite HA, !zlen_app; unfold zlen in *; lia|].
          - rewrite below_none; [lia|intros x I; apply HL in I; lia].
          - rewrite HA, !below_app. split.
            + rewrite (below_none l C) by (intros x I; apply (PSC xl x Ixl) in I; exact I). pose proof (below_le l A). rewrite ELs, below_app, zlen_app. rewrite (below_none l [xl]) by (intros x [<-|[]]; unfold l; lia).
              pose proof (below_le l S0). change (zlen [xl]) with 1. lia.
            + rewrite (below_all (l + 1) A) by (intros x I; apply (fun H => PAS x xl H Ixl) in I; unfold l; lia). rewrite (below_all (l + 1) S) by (intros x I; apply RG in I; lia). pose proof (below_le (l + 1) C). lia. }
        rewrite K1, K2. rewrite (HP f) by lia.
        assert (IFF : forall t, 0 <= t < T -> (f <= t <= l <-> ofl t S <> [])).
        { intros t Ht. rewrite ofl_in. split; [|intros (x & I & <-); apply RG; exact I]. intros Hfl.
          destruct (Z.eq_dec t f) as [->|Nf]; [exists x0; auto|]. destruct (Z.eq_dec t l) as [->|Nl]; [exists xl; auto|].
          destruct (HN t Ht) as (x & I & E). exists x. split; [|exact E]. rewrite HA in I. apply in_app_or in I. destruct I as [I|I]; [exfalso; pose proof (PAS x x0 I Ix0); unfold f in *; lia|].
          apply in_app_or in I. destruct I as [I|I]; [exact I|]. exfalso. pose proof (PSC xl x Ixl I). unfold l in *. lia. }
        pose proof (rank_sizes f l ltac:(exists x0; auto) ltac:(exists xl; auto) RG) as RS.
        destruct (inflate_trees_spec pertree f l (zlen A - below f L) (fun t => below t L) (fun t => ofl t S) HP IFF ltac:(lia) RS (Z.to_nat T) 0 0 (zlen A - below f L) (fun _ => empty_tree D)) as (trees' & E & O & I); [lia|lia|replace (0 <=? f) with true by lia; reflexivity|rewrite ESp; exact GD|].
        rewrite ESp in E. rewrite E. eexists. split; [reflexivity|]. apply (FIN f l trees'); [right; exact FL|exact IFF|intros u Hu; apply O; lia|intros u Hu; apply I; lia].
      - assert (EN : S = []) by (destruct S; [reflexivity|unfold zlen in CS; cbn [length] in CS; lia]).
        destruct (Z_le_gt_dec 0 T) as [HT|HT].
        + assert (IFF : forall t, 0 <= t < T -> (-1 <= t <= -2 <-> ofl t S <> [])) by (intros t Ht; rewrite EN; cbn; split; [lia|congruence]).
          destruct (inflate_trees_spec pertree (-1) (-2) 0 (fun t => below t L) (fun t => ofl t S) HP IFF ltac:(lia) ltac:(intros; lia) (Z.to_nat T) 0 0 0 (fun _ => empty_tree D)) as (trees' & E & O & I); [lia|lia|reflexivity|rewrite ESp; exact GD|].
          rewrite ESp in E. rewrite E. eexists. split; [reflexivity|]. apply (FIN (-1) (-2) trees'); [left; auto|exact IFF|intros u Hu; apply O; lia|intros u Hu; apply I; lia].
        + replace (Z.to_nat T) with 0%nat in * by lia. cbn [inflate_trees]. eexists. split; [reflexivity|]. apply (FIN (-1) (-2) (fun _ => empty_tree D)); [left; auto|intros; lia|reflexivity|intros; lia].
    Qed.
  End Rank.
End Loop.

(** ** all ranks *)
Section All.
  Variable d : dim.
  Variables (St D : Type).
  Local Notation leaf := (quad * D)%type.
  Variable T : Z.
  Variable nodata : D.
  Variable b : bool.

  Definition ins_of (ss : list St) (segs : list (list (Z * leaf))) : list (input St D) :=
    map (fun x => (fst x, wordsof d D (map snd (snd x)), dataof D b (map snd (snd x)))) (combine ss segs).

  Lemma zlen_concat_pre (segs : list (list (Z * leaf))) : forall k, (k <= length segs)%nat -> pre (map zlen segs) k = zlen (concat (firstn k segs)).
  Proof.
    induction segs as [|s segs IH]; intros k Hk; destruct k as [|k]; cbn [map pre firstn concat]; try reflexivity. cbn [length] in Hk. rewrite zlen_app, IH by lia. reflexivity.
  Qed.
  Lemma gfq_get (segs : list (list (Z * leaf))) k : (k <= length segs)%nat -> zget (count_quadrants (map zlen segs)) (Z.of_nat k) = Some (zlen (concat (firstn k segs))).
  Proof.
    intros Hk. unfold count_quadrants. rewrite zget_nth by lia. rewrite Nat2Z.id, running_nth by (rewrite map_length; exact Hk). rewrite zlen_concat_pre by exact Hk. reflexivity.
  Qed.

  Section Segs.
    Variables (segs : list (list (Z * leaf))) (pertree : list Z).
    Let L := concat segs.
    Hypothesis HS : lsorted L.
    Hypothesis HL : forall x, In x L -> 0 <= fst x < T.
    Hypothesis HNE : forall t, 0 <= t < T -> exists x, In x L /\ fst x = t.
    Hypothesis HGD : good d D nodata b (map snd L).
    Hypothesis HP : forall t, 0 <= t <= T -> zget pertree t = Some (below t L).

    Lemma inflate_procs_spec : forall rest ss before, length ss = length rest -> segs = before ++ rest ->
      exists ps, mapi_opt (inflate_proc d St D T nodata (count_quadrants (map zlen segs)) pertree) (zlen before) (ins_of ss rest) = Some ps /\
        Forall (proc_ok d St D T) ps /\ map (pr_s St D) ps = ss /\ map (rank_leaves St D T) ps = rest.
    Proof.
      induction rest as [|S rest IH]; intros ss before Hl E.
      - destruct ss; [|discriminate Hl]. exists []. repeat split; constructor.
      - destruct ss as [|s ss]; [discriminate Hl|]. unfold ins_of. cbn [combine map mapi_opt fst snd].
        assert (EL : L = concat before ++ S ++ concat rest) by (unfold L; rewrite E, concat_app; reflexivity).
        assert (G1 : zget (count_quadrants (map zlen segs)) (zlen before) = Some (zlen (concat before))).
        { unfold zlen at 2. rewrite gfq_get by (rewrite E, app_length; lia). rewrite E, firstn_app, Nat.sub_diag, firstn_all. cbn [firstn]. rewrite app_nil_r. reflexivity. }
        assert (G2 : zget (count_quadrants (map zlen segs)) (zlen before + 1) = Some (zlen (concat before) + zlen S)).
        { replace (zlen before + 1) with (Z.of_nat (length before + 1)) by (unfold zlen; lia). rewrite gfq_get by (rewrite E, app_length; cbn [length]; lia).
          rewrite E, firstn_app, firstn_all2 by lia. replace (length before + 1 - length before)%nat with 1%nat by lia. cbn [firstn]. rewrite concat_app, zlen_app. cbn [concat]. rewrite app_nil_r. reflexivity. }
        pose proof HGD as GL. rewrite EL, !map_app in GL. apply good_app in GL. destruct GL as (_ & GL). apply good_app in GL. destruct GL as (GS & _).
        destruct (inflate_proc_spec d St D T nodata b L pertree HS HL HNE HP (concat before) S (concat rest) EL _ _ s G1 G2 GS) as (p & E1 & E2 & E3 & E4).
        rewrite E1. destruct (IH ss (before ++ [S])) as (ps & F1 & F2 & F3 & F4); [cbn [length] in Hl; lia|rewrite <- app_assoc; exact E|].
        rewrite zlen_app in F1. change (zlen [S]) with 1 in F1. unfold ins_of in F1. rewrite F1. exists (p :: ps). split; [reflexivity|]. split; [constructor; assumption|].
        cbn [map]. rewrite E3, F3, F4. split; [reflexivity|]. f_equal. unfold rank_leaves.
        rewrite (loc_from_ext _ (fun t => ofl t S)) by (intros t Ht; rewrite E4; replace ((0 <=? t) && (t <? T)) with true by lia; reflexivity).
        destruct (sorted_parts D L HS (concat before) S (concat rest) EL) as (_ & _ & _ & SS). apply lsorted_split; [exact SS|].
        intros x I. assert (0 <= fst x < T) by (apply HL; rewrite EL; apply in_or_app; right; apply in_or_app; left; exact I). lia.
    Qed.

    Lemma inflate_any ss : segs <> [] -> length ss = length segs -> exists F, inflate d St D T nodata (count_quadrants (map zlen segs)) pertree (ins_of ss segs) = Some F /\
      Forall (proc_ok d St D T) (f_procs _ _ F) /\ global_partition fst T (map (rk_of St D) (f_procs _ _ F)) = Some (f_gfp _ _ F) /\ f_gnum _ _ F = zlen L /\
      map (rank_leaves St D T) (f_procs _ _ F) = segs /\ map (pr_s St D) (f_procs _ _ F) = ss /\ f_gfq _ _ F = count_quadrants (map zlen segs) /\ f_rev _ _ F = 0.
    Proof.
      intros NE Hl. destruct (inflate_procs_spec segs ss [] Hl eq_refl) as (ps & E & OK & E1 & E2). unfold inflate. change (zlen (@nil (list (Z * leaf)))) with 0 in E. rewrite E.
      assert (RK : Forall (rk_ok T) (map (rk_of St D) ps)) by (apply Forall_map; eapply Forall_impl; [|exact OK]; intros p (H & _); exact H).
      destruct (global_partition_spec (@fst quad D) T _ RK) as (ms & EM & _). rewrite EM.
      assert (LI : zlen (ins_of ss segs) = zlen segs) by (unfold ins_of, zlen; rewrite map_length, combine_length; lia). rewrite LI. unfold zlen at 2. rewrite gfq_get by lia. rewrite firstn_all. fold L.
      eexists. split; [reflexivity|]. cbn [f_procs f_gfq f_rev f_gfp f_gnum]. repeat split; assumption.
    Qed.
  End Segs.

  Section Forest.
    Variables (segs : list (list (Z * leaf))) (pertree : list Z).
    Let L := concat segs.
    Hypothesis HS : lsorted L.
    Hypothesis HL : forall x, In x L -> 0 <= fst x < T.
    Hypothesis HT : 0 < T.
    Hypothesis HTL : forall t, 0 <= t < T -> tiles d 0 (TREE d) (map fst (ofl t L)).
    Hypothesis HD : b = false -> Forall (fun x => snd (snd x) = nodata) L.
    Hypothesis HP : forall t, 0 <= t <= T -> zget pertree t = Some (below t L).

    Lemma leaves_some t : 0 <= t < T -> exists x, In x L /\ fst x = t.
    Proof.
      intros Ht. apply ofl_in. intros E. specialize (HTL t Ht). rewrite E in HTL. cbn in HTL. pose proof (tree_pos d). lia.
    Qed.
    Lemma leaves_good : good d D nodata b (map snd L).
    Proof.
      split.
      - apply Forall_forall. intros lf I. apply in_map_iff in I. destruct I as (x & <- & I). pose proof (tiles_wf d _ _ _ (HTL (fst x) (HL x I))) as W. rewrite Forall_forall in W. apply wf_rdq, W. apply in_map.
        unfold ofl. apply in_map_iff. exists x. split; [reflexivity|]. apply filter_In. split; [exact I|lia].
      - intros B. specialize (HD B). rewrite Forall_map. exact HD.
    Qed.

    Lemma inflate_spec ss : segs <> [] -> length ss = length segs -> exists F, inflate d St D T nodata (count_quadrants (map zlen segs)) pertree (ins_of ss segs) = Some F /\
      forest_ok d St D T F /\ map (rank_leaves St D T) (f_procs _ _ F) = segs /\ map (pr_s St D) (f_procs _ _ F) = ss /\ f_gfq _ _ F = count_quadrants (map zlen segs) /\ f_rev _ _ F = 0.
    Proof.
      intros NE Hl. destruct (inflate_any segs pertree HS HL leaves_some leaves_good HP ss NE Hl) as (F & E & OK & EM & GN & E2 & E1 & GQ & RV). exists F. split; [exact E|].
      assert (AL : all_leaves St D T (f_procs _ _ F) = L) by (unfold all_leaves, L; rewrite <- E2, flat_map_concat_map; reflexivity).
      split; [|split; [exact E2|split; [exact E1|split; [exact GQ|exact RV]]]]. unfold forest_ok. rewrite AL.
      split; [intros EN; rewrite EN in E2; cbn [map] in E2; congruence|]. split; [exact OK|]. split; [exact HS|]. split.
      { intros t Ht. rewrite <- (ofl_all St D T HT) by exact Ht. rewrite AL. apply HTL. exact Ht. }
      split; [exact GN|]. split; [|exact EM]. rewrite GQ. f_equal. rewrite <- E2, map_map. apply map_ext_in. intros p I. rewrite Forall_forall in OK. destruct (OK p I) as (_ & N & _). rewrite N. reflexivity.
    Qed.
  End Forest.
End All.
