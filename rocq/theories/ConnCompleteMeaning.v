(** * p4est_connectivity_complete: which neighbors are found in the result *)

From Coq Require Import ZArith List Bool Lia ZifyBool Permutation.
From Verif Require Import Quad Spec Neighbor Transform Partition Conn ConnLemmas ConnBounds Permute PermuteArray ConnComplete ConnCompleteArray ConnCompleteFaces ConnCompleteGroups ConnCompleteValid ConnCompleteEdges ConnCompleteCorners.
Import ListNotations.
Open Scope Z_scope.

Definition pdec (a b : Z * Z) : {a = b} + {a <> b}.
Proof. decide equality; apply Z.eq_dec. Defined.

(** ** Lists of transforms *)
Definition tdec (a b : Z * Z * Z) : {a = b} + {a <> b}.
Proof. repeat decide equality. Defined.
Lemma find_self_spec code x : forall g i, (forall y, In y g -> Z.rem (code y) 12 = snd y) -> In x g ->
  exists j, zget g j = Some x /\ find_self (fst x) (snd x) (map (fun y => (fst y, code y)) g) i = (i + j, Z.quot (code x) 12).
Proof.
  induction g as [|y g IH]; intros i H I; [destruct I|]. cbn [map find_self]. rewrite (H y) by (left; auto).
  destruct ((snd y =? snd x) && (fst y =? fst x)) eqn:E.
  - assert (y = x) by (destruct x, y; cbn in *; f_equal; lia). subst y. exists 0. split; [reflexivity|]. f_equal. lia.
  - destruct I as [->|I]; [lia|]. destruct (IH (i + 1) (fun z Iz => H z (or_intror Iz)) I) as (j & Ej & F). exists (1 + j). pose proof (zget_range _ _ _ Ej).
    split; [rewrite zget_cons by lia; rewrite <- Ej; f_equal; lia|]. rewrite F. f_equal. lia.
Qed.
Lemma collect_spec dis ie fl a b f : forall l i, In (a, b, f) (edge_collect dis ie fl l i) <->
  exists j re, zget l j = Some (a, re) /\ i + j <> ie /\ b = Z.rem re 12 /\ f = Z.lxor (Z.quot re 12) fl /\ ~ In (a, b, f) dis.
Proof.
  assert (SH : forall (x : Z * Z) l j v, 0 < j -> (zget (x :: l) j = v <-> zget l (j - 1) = v)) by (intros; rewrite zget_cons by auto; tauto).
  induction l as [|[nt re] l IH]; intros i; cbn [edge_collect].
  - split; [intros []|]. intros (j & re & E & _). apply zget_in in E. destruct E.
  - specialize (IH (i + 1)).
    assert (SPLIT : (exists j re0, zget ((nt, re) :: l) j = Some (a, re0) /\ i + j <> ie /\ b = Z.rem re0 12 /\ f = Z.lxor (Z.quot re0 12) fl /\ ~ In (a, b, f) dis) <->
      ((i <> ie /\ a = nt /\ b = Z.rem re 12 /\ f = Z.lxor (Z.quot re 12) fl /\ ~ In (a, b, f) dis) \/
       (exists j re0, zget l j = Some (a, re0) /\ i + 1 + j <> ie /\ b = Z.rem re0 12 /\ f = Z.lxor (Z.quot re0 12) fl /\ ~ In (a, b, f) dis))).
    { split.
      - intros (j & re0 & E & R). pose proof (zget_range _ _ _ E). destruct (Z.eq_dec j 0) as [->|NZ].
        + left. cbn in E. injection E as <- <-. rewrite Z.add_0_r in R. tauto.
        + right. exists (j - 1), re0. rewrite SH in E by lia. replace (i + 1 + (j - 1)) with (i + j) by lia. auto.
      - intros [(N & -> & R)|(j & re0 & E & R)].
        + exists 0, re. rewrite Z.add_0_r. auto.
        + pose proof (zget_range _ _ _ E). exists (j + 1), re0. rewrite SH by lia. replace (j + 1 - 1) with j by lia. replace (i + (j + 1)) with (i + 1 + j) by lia. auto. }
    rewrite SPLIT, <- IH. destruct (i =? ie) eqn:EI; [split; [auto|intros [(N & _)|]; [lia|auto]]|]. cbv zeta.
    destruct (mem_triple (nt, Z.rem re 12, Z.lxor (Z.quot re 12) fl) dis) eqn:M.
    + apply mem_triple_true in M. split; [auto|]. intros [(_ & -> & -> & -> & NI)|]; [tauto|auto].
    + cbn [In]. assert (NM : ~ In (nt, Z.rem re 12, Z.lxor (Z.quot re 12) fl) dis) by (intros I; apply mem_triple_true in I; congruence). split.
      * intros [E|I]; [|auto]. injection E as <- <- <-. left. repeat split; auto. lia.
      * intros [(_ & -> & -> & -> & _)|I]; auto.
Qed.

Lemma lxor01 a b : (a = 0 \/ a = 1) -> (b = 0 \/ b = 1) -> (Z.lxor a b = 0 \/ Z.lxor a b = 1) /\ (Z.lxor a b = 0 <-> a = b).
Proof. intros [-> | ->] [-> | ->]; cbn; lia. Qed.

(** two edges with the same two vertices *)
Lemma perm2 (a b p q : Z) : Permutation [a; b] [p; q] <-> (a = p /\ b = q) \/ (a = q /\ b = p).
Proof.
  split.
  - intros P. apply Permutation_length_2_inv in P as [E|E]; injection E as -> ->; auto.
  - intros [[-> ->]|[-> ->]]; [auto|apply perm_swap].
Qed.
Lemma everts_is ttv x : everts ttv x = [vtx D3 ttv (fst x) (edge_corners (snd x) 0); vtx D3 ttv (fst x) (edge_corners (snd x) 1)].
Proof. reflexivity. Qed.

Section Edge.
  Variables (ttv : list Z) (x y : Z * Z).
  Hypothesis Hx : 0 <= snd x < 12.
  Hypothesis Hy : 0 <= snd y < 12.
  Local Notation V z i := (vtx D3 ttv (fst z) (edge_corners (snd z) i)).
  Hypothesis DX : V x 0 <> V x 1.
  Definition flip : Z := Z.lxor (Z.quot (ecode ttv y) 12) (Z.quot (ecode ttv x) 12).

  Lemma flip_is : ekey ttv x = ekey ttv y -> (flip = 0 \/ flip = 1) /\ forall i, i = 0 \/ i = 1 -> V y (Z.lxor flip i) = V x i.
  Proof.
    intros E. apply ekey_eq in E. rewrite !everts_is in E. apply perm2 in E. unfold flip.
    destruct (ecode_rem ttv x Hx) as (_ & _ & ->). destruct (ecode_rem ttv y Hy) as (_ & _ & ->). rewrite !everts_is.
    assert (N0 : forall a b, nget [a; b] 0 = a) by reflexivity. assert (N1 : forall a b, nget [a; b] 1 = b) by reflexivity. rewrite !N0, !N1.
    destruct E as [[E1 E2]|[E1 E2]].
    - rewrite <- E1, <- E2. destruct (V x 0 <? V x 1); (split; [cbn; auto|]); intros i [-> | ->]; cbn; auto.
    - rewrite <- E1, <- E2. destruct (V x 0 <? V x 1) eqn:L1; destruct (V x 1 <? V x 0) eqn:L2; try (exfalso; lia); (split; [cbn; auto|]); intros i [-> | ->]; cbn; auto.
  Qed.
  Lemma flip_key f : (f = 0 \/ f = 1) -> (forall i, i = 0 \/ i = 1 -> V y (Z.lxor f i) = V x i) -> ekey ttv x = ekey ttv y /\ f = flip.
  Proof.
    intros Hf H. pose proof (H 0 (or_introl eq_refl)) as H0. pose proof (H 1 (or_intror eq_refl)) as H1.
    assert (EK : ekey ttv x = ekey ttv y). { apply ekey_eq. rewrite !everts_is. apply perm2. destruct Hf as [-> | ->]; cbn in H0, H1; auto. }
    split; [auto|]. destruct (flip_is EK) as (HF & G). pose proof (G 0 (or_introl eq_refl)) as G0. pose proof (G 1 (or_intror eq_refl)) as G1.
    revert HF G0 G1. generalize flip. intros fl [-> | ->] G0 G1; destruct Hf as [-> | ->]; cbn in *; congruence.
  Qed.
End Edge.

(** ** Neighbors *)
Section Meaning.
  Variables (d : dim) (c : conn) (ttv : list Z).
  Hypothesis AL : allocated d c.
  Hypothesis VA : conn_is_valid d c = Some true.
  Hypothesis NV : 0 < c_nv c.
  Hypothesis TV : c_ttv c = Some ttv.
  Variables (r : conn) (ttt ttf : list Z) (c2 : conn) (ge gc : list (list (Z * Z))).
  Hypothesis PH : phases d c ttv r ttt ttf c2 ge gc.

  Lemma same_fields : c_nt c2 = c_nt c /\ c_nv c2 = c_nv c /\ c_ttt c2 = ttt /\ c_ttf c2 = ttf.
  Proof.
    pose proof (ph_edges _ _ _ _ _ _ _ _ _ PH) as E. destruct (is3 d).
    - destruct E as (_ & _ & _ & tte & off & ts & cs & -> & _). auto.
    - rewrite E. auto.
  Qed.
  Lemma r_fields : c_nt r = c_nt c /\ c_nv r = c_nv c /\ c_ttt r = ttt /\ c_ttf r = ttf /\ c_nc r = zlen gc.
  Proof.
    destruct same_fields as (A & B & C & D). destruct (ph_corners _ _ _ _ _ _ _ _ _ PH) as (_ & _ & _ & ttc & off & ts & cs & E & _). rewrite E. auto.
  Qed.

  Lemma distinct_same x : corner_distinct d r x = corner_distinct d c2 x.
  Proof. destruct (ph_corners _ _ _ _ _ _ _ _ _ PH) as (_ & _ & _ & ttc & off & ts & cs & E & _). rewrite E. reflexivity. Qed.
  Lemma distinct_some x : In x (all_corners d (c_nt c)) -> exists dis, corner_distinct d r x = Some dis.
  Proof.
    intros I. rewrite distinct_same. destruct same_fields as (E & _).
    pose proof (distinct_ok d c2 (zlen (c_ett c2)) (ph_al _ _ _ _ _ _ _ _ _ PH)) as Q. rewrite E in Q. specialize (Q (ph_fv _ _ _ _ _ _ _ _ _ PH) (ph_eg _ _ _ _ _ _ _ _ _ PH) x I).
    destruct (corner_distinct d c2 x); [eauto|congruence].
  Qed.

  Lemma corner_found x dis : In x (all_corners d (c_nt c)) -> corner_distinct d r x = Some dis -> In x dis ->
    exists l, find_corner_transform d r (fst x) (snd x) = Some l /\
      (forall y, In y l -> In y (all_corners d (c_nt c)) /\ vtx d ttv (fst y) (snd y) = vtx d ttv (fst x) (snd x)) /\
      (forall y, In y (all_corners d (c_nt c)) -> vtx d ttv (fst y) (snd y) = vtx d ttv (fst x) (snd x) -> In y dis \/ In y l) /\
      (forall y, In y l -> ~ In y dis).
  Proof.
    intros Ix ED SELF. destruct (users_spec d ttv (c_nt c) 0) as (_ & UI). set (g := users d ttv (c_nt c) (vtx d ttv (fst x) (snd x))).
    pose proof Ix as Ix'. unfold all_corners in Ix'. destruct x as [t k]. apply in_prod_iff in Ix' as (Ht & Hk). apply below_in in Ht, Hk. cbn [fst snd] in *.
    assert (Ig : In g (map (users d ttv (c_nt c)) (below (c_nv c)))).
    { apply in_map. apply below_in. apply (vtx_range d c ttv AL VA NV TV); auto. }
    assert (Xg : In (t, k) g) by (apply UI; auto).
    pose proof ED as ED2. rewrite distinct_same in ED2.
    destruct (ph_corners _ _ _ _ _ _ _ _ _ PH) as (OF & N & R & ttc & off & ts & cs & ER & AR). destruct r_fields as (_ & _ & _ & _ & NC).
    assert (F0 : c_ttc r = ttc /\ c_coff r = off /\ c_ctt r = ts /\ c_ctc r = cs) by (rewrite ER; auto). destruct F0 as (F1 & F2 & F3 & F4).
    destruct (in_dec pdec (t, k) (concat gc)) as [J|J].
    - destruct (ar_number _ _ _ _ _ _ _ _ AR _ J) as (j & g' & Ej & Ix' & F & Rj).
      assert (g' = g).
      { assert (Ig' : In g' gc) by (eapply zget_in; eauto). apply (ofilter_in _ _ _ OF) in Ig' as (Ig' & _). apply in_map_iff in Ig' as (v & <- & _).
        apply UI in Ix' as (_ & <-). reflexivity. }
      subst g'. destruct (ar_combine _ _ _ _ _ _ _ _ AR j g Ej) as (s & e & O1 & O2 & LG & Hs & -> & _ & Z1 & Z2).
      exists (filter (fun y => negb (mem_pair y dis)) g).
      assert (MEM : forall y, In y (filter (fun y => negb (mem_pair y dis)) g) <-> In y g /\ ~ In y dis).
      { intros y. rewrite filter_In, negb_true_iff. split; intros [A B]; (split; [auto|]); [intros I; apply mem_pair_true in I; congruence|].
        destruct (mem_pair y dis) eqn:M; [apply mem_pair_true in M; tauto|auto]. }
      split; [|split; [|split]].
      + unfold find_corner_transform. rewrite NC. replace (zlen gc =? 0) with false by lia. cbn [fst snd] in F. rewrite F1, F. replace (j =? -1) with false by lia.
        rewrite F2, O1, O2, LG. unfold corner_distinct in ED. cbn [fst snd] in ED.
        destruct (corner_faces_distinct d r t k) as [l|]; [|discriminate]. rewrite ED, F3, F4, Z1, Z2, combine_maps.
        f_equal. f_equal. erewrite map_ext with (g := fun y => y); [apply map_id|]. intros []; auto.
      + intros y I. apply MEM in I as (I & _). apply UI in I. auto.
      + intros y Iy Vy. destruct (in_dec pdec y dis) as [D|D]; [auto|]. right. apply MEM. split; [|auto]. apply UI. auto.
      + intros y I. apply MEM in I. tauto.
    - exists []. split; [|split; [intros y []|split; [|intros y []]]].
      + unfold find_corner_transform. rewrite NC. destruct (zlen gc =? 0); [reflexivity|]. rewrite F1.
        pose proof (ar_out _ _ _ _ _ _ _ _ AR (t, k) Ht Hk J) as F. cbn [fst snd] in F. rewrite F. reflexivity.
      + intros y Iy Vy. left. assert (Yg : In y g) by (apply UI; auto).
        destruct (ofilter_dec _ _ _ OF g Ig) as [E|E]; [exfalso; apply J, in_concat; exists g; split; [apply (ofilter_in _ _ _ OF)|]; auto|].
        unfold corner_real in E. destruct (length g <=? 1)%nat eqn:LG.
        * apply Nat.leb_le in LG. clear - LG Xg Yg SELF. clearbody g. destruct g as [|a [|b q]]; cbn [length] in LG; [destruct Xg| |lia]. destruct Xg as [->|[]]. destruct Yg as [<-|[]]. auto.
        * pose proof (some_nonempty_false _ _ E (t, k) Xg) as CI. unfold corner_internal in CI. rewrite ED2 in CI. apply some_eq in CI.
          destruct (mem_pair y dis) eqn:M; [apply mem_pair_true; auto|]. exfalso. assert (In y (filter (fun y => negb (mem_pair y dis)) g)) by (apply filter_In; rewrite M; auto).
          rewrite CI in H. destruct H.
  Qed.

  (** *** edges *)
  Hypothesis D3d : d = D3.
  Lemma edge_found x dis : In x (all_edges (c_nt c)) -> vtx D3 ttv (fst x) (edge_corners (snd x) 0) <> vtx D3 ttv (fst x) (edge_corners (snd x) 1) ->
    edge_distinct r (fst x) (snd x) = Some dis -> In (fst x, snd x, 0) dis ->
    exists l, find_edge_transform r (fst x) (snd x) = Some l /\
      (forall t' e' f, In (t', e', f) l -> In (t', e') (all_edges (c_nt c)) /\ (t', e') <> x /\ ekey ttv x = ekey ttv (t', e') /\ f = flip ttv x (t', e')) /\
      (forall y, In y (all_edges (c_nt c)) -> y <> x -> ekey ttv x = ekey ttv y -> In (fst y, snd y, flip ttv x y) dis \/ In (fst y, snd y, flip ttv x y) l) /\
      (forall y, In y l -> ~ In y dis).
  Proof.
    intros Ix NE ED SELF. destruct (edge_groups_spec ttv (c_nt c)) as (_ & EG & EX). set (g := filter (same ttv (ekey ttv x)) (all_edges (c_nt c))).
    assert (GI : forall y, In y g <-> In y (all_edges (c_nt c)) /\ ekey ttv x = ekey ttv y).
    { intros y. unfold g. rewrite filter_In. unfold same. rewrite list_eqb_eq. split; intros [A B]; auto. }
    assert (RA : forall y, In y (all_edges (c_nt c)) -> 0 <= fst y < c_nt c /\ 0 <= snd y < 12) by (intros [a b]; unfold all_edges; rewrite in_prod_iff, !below_in; auto).
    assert (NG : NoDup g) by (apply filter_nodup, prod_nodup; apply below_nodup).
    assert (Xg : In x g) by (apply GI; auto). destruct (RA x Ix) as (Hxt & Hxe).
    pose proof (ph_edges _ _ _ _ _ _ _ _ _ PH) as PE. rewrite D3d in PE. cbn [is3] in PE. destruct PE as (OF & N & R & tte & off & ts & cs & EC & AR).
    destruct (ph_corners _ _ _ _ _ _ _ _ _ PH) as (_ & _ & _ & ttc & coff & cts & ccs & ER & _).
    assert (F1 : c_ne r = zlen ge /\ c_tte r = tte /\ c_eoff r = off /\ c_ett r = ts /\ c_ete r = cs) by (rewrite ER, EC; auto). destruct F1 as (F1 & F2 & F3 & F4 & F5).
    assert (ED1 : edge_distinct (set_faces c ttt ttf) (fst x) (snd x) = Some dis) by (rewrite <- ED, ER, EC; reflexivity).
    assert (COL : forall ie fl, zget g ie = Some x -> fl = Z.quot (ecode ttv x) 12 ->
      let l := edge_collect dis ie fl (map (fun y => (fst y, ecode ttv y)) g) 0 in
      (forall t' e' f, In (t', e', f) l <-> (In (t', e') g /\ (t', e') <> x /\ f = flip ttv x (t', e') /\ ~ In (t', e', f) dis))).
    { intros ie fl Eie -> l t' e' f. unfold l. rewrite collect_spec. split.
      - intros (j & re & Ej & Nj & -> & -> & ND). rewrite map_zget in Ej. destruct (zget g j) as [y|] eqn:Ey; [|discriminate]. cbn [option_map] in Ej. injection Ej as <- <-.
        assert (Iy : In y g) by (eapply zget_in; eauto). destruct (RA y) as (_ & He); [apply GI; auto|]. destruct (ecode_rem ttv y He) as (_ & E2 & _). rewrite E2 in *.
        assert (Y : y = (fst y, snd y)) by (destruct y; auto). rewrite <- Y in *. split; [auto|]. split; [|split; [reflexivity|exact ND]]. intros ->. apply Nj. cbn.
        pose proof (zget_range _ _ _ Ey). pose proof (zget_range _ _ _ Eie). rewrite zg in Ey, Eie by lia.
        assert (Z.to_nat j = Z.to_nat ie); [|lia]. apply (proj1 (NoDup_nth_error g) NG); [unfold zlen in *; lia|congruence].
      - intros (I & NX & -> & ND). apply zg_ex in I as (j & Hj & Ej). exists j, (ecode ttv (t', e')). rewrite map_zget, Ej. cbn [option_map fst]. split; [auto|].
        split; [intros E; cbn in E; subst j; congruence|]. assert (Iy : In (t', e') g) by (eapply zget_in; eauto).
        destruct (RA (t', e')) as (_ & He); [apply GI; auto|]. destruct (ecode_rem ttv (t', e') He) as (_ & E2 & _). rewrite E2. auto. }
    assert (FS : exists ie, zget g ie = Some x /\ find_self (fst x) (snd x) (map (fun y => (fst y, ecode ttv y)) g) 0 = (ie, Z.quot (ecode ttv x) 12)).
    { destruct (find_self_spec (ecode ttv) x g 0) as (j & Ej & F); [|auto|exists j; auto]. intros y Iy. apply ecode_rem. apply RA, GI. auto. }
    destruct FS as (ie & Eie & FS). specialize (COL ie _ Eie eq_refl). cbv zeta in COL.
    destruct (in_dec pdec x (concat ge)) as [J|J].
    - destruct (ar_number _ _ _ _ _ _ _ _ AR _ J) as (j & g' & Ej & Ix' & F & Rj).
      assert (g' = g).
      { assert (Ig' : In g' ge) by (eapply zget_in; eauto). apply (ofilter_in _ _ _ OF) in Ig' as (Ig' & _). destruct (EG g' Ig') as (k & ->).
        apply filter_In in Ix' as (_ & Ix'). apply list_eqb_eq in Ix'. subst k. reflexivity. }
      subst g'. destruct (ar_combine _ _ _ _ _ _ _ _ AR j g Ej) as (s & e & O1 & O2 & LG & Hs & -> & _ & Z1 & Z2).
      exists (edge_collect dis ie (Z.quot (ecode ttv x) 12) (map (fun y => (fst y, ecode ttv y)) g) 0). split; [|split; [|split]].
      + unfold find_edge_transform. rewrite F1. replace (zlen ge =? 0) with false by lia. rewrite F2, F. replace (j =? -1) with false by lia. rewrite F3, O1, O2, LG, ED, F4, F5, Z1, Z2, combine_maps, FS. reflexivity.
      + intros t' e' f I. apply COL in I as (I & NX & -> & _). apply GI in I as (I & K). auto.
      + intros y Iy NX K. destruct (in_dec tdec (fst y, snd y, flip ttv x y) dis) as [D|D]; [auto|]. right. apply COL.
        destruct y as [ty ey]. cbn [fst snd] in *. split; [apply GI; auto|]. auto.
      + intros [[t' e'] f] I. apply COL in I. tauto.
    - exists []. split; [|split; [intros t' e' f []|split; [|intros y []]]].
      + unfold find_edge_transform. rewrite F1. destruct (zlen ge =? 0); [reflexivity|]. rewrite F2.
        rewrite (ar_out _ _ _ _ _ _ _ _ AR x Hxt Hxe J). reflexivity.
      + intros y Iy NX K. left. assert (Yg : In y g) by (apply GI; auto). destruct (EX x Ix) as [Ig|Eg]; [|fold g in Eg; rewrite Eg in Yg; destruct Yg as [<-|[]]; congruence]. fold g in Ig.
        destruct (ofilter_dec _ _ _ OF g Ig) as [E|E]; [exfalso; apply J, in_concat; exists g; split; [apply (ofilter_in _ _ _ OF)|]; auto|].
        pose proof (some_nonempty_false _ _ E x Xg) as CI. unfold edge_internal in CI. rewrite ED1, FS in CI. apply some_eq in CI.
        destruct (in_dec tdec (fst y, snd y, flip ttv x y) dis) as [D|D]; [auto|]. exfalso.
        assert (I : In (fst y, snd y, flip ttv x y) []); [|destruct I]. rewrite <- CI. apply COL. destruct y as [ty ey]. cbn [fst snd] in *. auto.
  Qed.
End Meaning.
