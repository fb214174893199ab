(** * Lemmas on p4est_connectivity_join_faces: storing a corner and combining two corners *)

From Coq Require Import ZArith List Bool Lia ZifyBool Permutation.
From Verif Require Import Quad Spec Neighbor Transform Partition Conn ConnLemmas ConnBounds Permute PermuteArray ConnComplete ConnCompleteArray ConnCompleteEdges Join JoinArray.
Import ListNotations.
Open Scope Z_scope.

Lemma zget_empty {A} i : zget (@nil A) i = None.
Proof. unfold zget. destruct (i <? 0); [reflexivity|]. destruct (Z.to_nat i); reflexivity. Qed.
Lemma index_inj d n (x y : Z * Z) : 0 <= fst x < n /\ 0 <= snd x < children d -> 0 <= fst y < n /\ 0 <= snd y < children d -> children d * fst x + snd x = children d * fst y + snd y -> x = y.
Proof. destruct x, y. cbn [fst snd]. intros (A & B) (C & D) E. assert (z = z1) by (destruct d; cbn [children] in *; lia). subst. f_equal. lia. Qed.
Lemma children_pos d : 0 < children d.
Proof. destruct d; cbn; lia. Qed.
Lemma in_index {A} (x : A) gs g : In x g -> In g gs -> exists j, zget gs j = Some g.
Proof. intros _ I. apply In_nth_error in I as (n & E). exists (Z.of_nat n). rewrite zg by lia. rewrite Nat2Z.id. auto. Qed.
Lemma some_eq {A} (a b : A) : Some a = Some b -> a = b.
Proof. congruence. Qed.
Lemma split_eq {A} (a : list A) : forall b a' b', a ++ b = a' ++ b' -> zlen a = zlen a' -> a = a'.
Proof.
  induction a as [|x a IH]; intros b [|y a'] b' E L; unfold zlen in L; cbn [length] in L; try lia; [reflexivity|].
  cbn [app] in E. injection E as -> E. f_equal. apply (IH b a' b' E). unfold zlen. lia.
Qed.
Definition pdec (x y : Z * Z) : {x = y} + {x <> y}.
Proof. decide equality; apply Z.eq_dec. Defined.

Section Store.
  Variables (d : dim) (c : conn) (gs : list (list (Z * Z))).
  Hypothesis ST : stores d c gs.
  Hypothesis NT : 0 < c_nt c.

  Lemma alloc_spec : let a := alloc_neg (c_ttc c) (children d * c_nt c) in
    zlen a = children d * c_nt c /\
    (forall j g x, zget gs j = Some g -> In x g -> zget a (children d * fst x + snd x) = Some j) /\
    (forall x, 0 <= fst x < c_nt c -> 0 <= snd x < children d -> ~ In x (concat gs) -> zget a (children d * fst x + snd x) = Some (-1)).
  Proof.
    destruct ST as [S1 S2 S3 S4 S5 S6 S7 S8 S9 S10]. pose proof (children_pos d) as CP. intros a. unfold a, alloc_neg. destruct (c_ttc c) as [|z l] eqn:E.
    - specialize (S7 eq_refl). subst gs. split; [apply rep_len; nia|]. split; [intros j g x F; rewrite zget_empty in F; discriminate|].
      intros x X Y _. apply rep_get. nia.
    - split; [apply S8; discriminate|]. split; [auto|]. intros x X Y N. apply S10; auto. discriminate.
  Qed.

  Lemma store_stores t k fs es : store_faces d c t k (below (dimz d)) = Some fs -> (if is3 d then store_edges c t k [0; 1; 2] else Some []) = Some es ->
    let tc := (t, k) :: fs ++ es in
    (forall x, In x tc -> (0 <= fst x < c_nt c /\ 0 <= snd x < children d) /\ ~ In x (concat gs)) ->
    exists ttc off ts cs, let c' := set_corners c (zlen gs + 1) ttc off ts cs in
      store_corner d c t k = Some c' /\ stores d c' (gs ++ [sort_uniq tc]) /\ ttc <> [].
  Proof.
    intros EF EE tc T. destruct alloc_spec as (L & AI & AO). destruct ST as [S1 S2 S3 S4 S5 S6 S7 S8 S9 S10]. pose proof (children_pos d) as CP.
    unfold store_corner. rewrite EF, EE. fold tc.
    destruct (sums_snoc (lens gs) (zlen (sort_uniq tc)) 0) as (s & Q1 & Q2). rewrite S1, S2.
    assert (LL : zlen (lens gs) = zlen gs) by (unfold lens, zlen; rewrite map_length; reflexivity). rewrite LL in Q1. rewrite Q1.
    destruct (oputs_spec (children d) (zlen gs) tc (alloc_neg (c_ttc c) (children d * c_nt c))) as (ttc & O1 & O2 & O3 & O4).
    { intros x I. rewrite L. destruct (T x I) as ((A & B) & _). nia. }
    rewrite O1. set (g := sort_uniq tc) in *.
    assert (SE : s = zlen (concat gs)).
    { pose proof (sums_at gs [] 0) as X. rewrite app_nil_r, Q1 in X. apply some_eq in X. unfold total in X. lia. }
    assert (NE : ttc <> []) by (intros ->; rewrite L in O2; unfold zlen in O2; cbn [length] in O2; nia).
    do 4 eexists. split; [reflexivity|]. split; [|exact NE].
    assert (DJ : forall x, In x g -> ~ In x (concat gs)) by (intros x I; apply T; apply sort_uniq_in; auto).
    assert (CC : concat (gs ++ [g]) = concat gs ++ g) by (rewrite concat_app; cbn [concat]; rewrite app_nil_r; reflexivity).
    constructor; cbn [set_corners c_nc c_nt c_ttc c_coff c_ctt c_ctc].
    - rewrite zlen_app', zlen_cons. change (zlen (@nil (list (Z * Z)))) with 0. lia.
    - unfold lens. rewrite map_app. cbn [map]. symmetry. exact Q2.
    - rewrite CC, map_app, S3, SE. f_equal. replace (zlen (concat gs)) with (zlen (map fst (concat gs))) by (unfold zlen; rewrite map_length; reflexivity).
      pose proof (firstn_zapp (map fst (concat gs)) []) as X. rewrite app_nil_r in X. exact X.
    - rewrite CC, map_app, S4, SE. f_equal. replace (zlen (concat gs)) with (zlen (map snd (concat gs))) by (unfold zlen; rewrite map_length; reflexivity).
      pose proof (firstn_zapp (map snd (concat gs)) []) as X. rewrite app_nil_r in X. exact X.
    - rewrite CC. apply (Permutation_NoDup (l := g ++ concat gs)); [apply Permutation_app_comm|].
      pose proof (sort_uniq_nodup tc) as N. fold g in N. clear - N DJ S5. induction g as [|x g IH]; cbn [app]; [auto|]. inversion_clear N. constructor; [|apply IH; auto; intros y I; apply DJ; right; auto].
      intros I. apply in_app_or in I as [I|I]; [auto|]. apply (DJ x); [left|]; auto.
    - intros x I. rewrite CC in I. apply in_app_or in I as [I|I]; [auto|]. apply T. apply sort_uniq_in. auto.
    - intros E. rewrite E in NE. congruence.
    - intros _. lia.
    - intros j h x E I. pose proof (zget_range _ _ _ E) as R. destruct (j <? zlen gs) eqn:J.
      + rewrite zg_app1 in E by lia. rewrite O4; [eapply AI; eauto|].
        assert (IC : In x (concat gs)) by (apply in_concat; exists h; split; [eapply zget_in; eauto|auto]).
        intros y Iy Ey. destruct (T y Iy) as (Ry & Ny). apply (index_inj d (c_nt c)) in Ey; [subst; auto|auto|auto].
      + rewrite zlen_app', zlen_cons in R. change (zlen (@nil (list (Z * Z)))) with 0 in R. rewrite zg_app2 in E by lia. assert (j = zlen gs) by lia. subst j. rewrite Z.sub_diag in E. cbn in E. injection E as <-.
        apply O3. apply sort_uniq_in. auto.
    - intros x _ A B N. rewrite CC in N. rewrite O4; [apply AO; auto; intros I; apply N; apply in_or_app; auto|].
      intros y Iy Ey. destruct (T y Iy) as (Ry & _). apply (index_inj d (c_nt c)) in Ey; [|auto|auto]. subst y. apply N. apply in_or_app. right. apply sort_uniq_in. auto.
  Qed.
End Store.

Lemma merge_stores d c A g0 B g1 C : stores d c (A ++ g0 :: B ++ g1 :: C) -> c_ttc c <> [] ->
  exists ttc off ts cs, let c' := set_corners c (c_nc c) ttc off ts cs in
    merge_corners d c (zlen A) (zlen A + 1 + zlen B) = Some c' /\ stores d c' (A ++ (g0 ++ g1) :: B ++ [] :: C) /\ ttc <> [].
Proof.
  intros [S1 S2 S3 S4 S5 S6 S7 S8 S9 S10] NN. pose proof (children_pos d) as CP. set (gs := A ++ g0 :: B ++ g1 :: C) in *. set (gs' := A ++ (g0 ++ g1) :: B ++ [] :: C).
  pose proof (zlen0 A) as PA. pose proof (zlen0 B) as PB. pose proof (zlen0 C) as PC.
  assert (G0 : zget gs (zlen A) = Some g0) by (unfold gs; rewrite zg_app2, Z.sub_diag by lia; reflexivity).
  assert (E1 : gs = (A ++ g0 :: B) ++ g1 :: C) by (unfold gs; rewrite <- app_assoc; reflexivity).
  assert (L1 : zlen (A ++ g0 :: B) = zlen A + 1 + zlen B) by (rewrite zlen_app', zlen_cons; lia).
  assert (G1 : zget gs (zlen A + 1 + zlen B) = Some g1) by (rewrite E1, <- L1, zg_app2, Z.sub_diag by lia; reflexivity).
  destruct (sums_slice gs _ _ G0) as (A' & B' & X1 & X2 & X3 & X4 & X5).
  assert (A' = A).
  { symmetry. unfold gs in X1. eapply split_eq; [exact X1|lia]. }
  subst A'. clear X1 X2 X5 B'.
  destruct (sums_slice gs _ _ G1) as (A' & B' & Y1 & Y2 & Y3 & Y4 & Y5).
  assert (A' = A ++ g0 :: B).
  { symmetry. rewrite E1 in Y1. eapply split_eq; [exact Y1|lia]. }
  subst A'. clear Y1 Y2 Y5 B'.
  assert (CC : concat gs = (concat A ++ g0) ++ concat B ++ g1 ++ concat C) by (unfold gs; rewrite concat_app; cbn [concat]; rewrite concat_app; cbn [concat]; rewrite <- !app_assoc; reflexivity).
  assert (CC' : concat gs' = (concat A ++ g0) ++ g1 ++ concat B ++ concat C) by (unfold gs'; rewrite concat_app; cbn [concat]; rewrite concat_app; cbn [concat app]; rewrite <- !app_assoc; reflexivity).
  assert (TO : total (A ++ g0 :: B) = zlen (concat A ++ g0) + zlen (concat B)) by (rewrite total_app, total_cons; unfold total; rewrite zlen_app'; lia).
  unfold merge_corners. rewrite S2, Y3, Y4, X4.
  replace (total (A ++ g0 :: B) + zlen g1 - total (A ++ g0 :: B)) with (zlen g1) by lia.
  assert (LM : forall {B} (f : Z * Z -> B) l, zlen (map f l) = zlen l) by (intros; unfold zlen; rewrite map_length; reflexivity).
  assert (SL : forall f : Z * Z -> Z, zslice (map f (concat gs)) (total (A ++ g0 :: B)) (Z.to_nat (zlen g1)) = Some (map f g1)).
  { intros f. rewrite CC, !map_app, TO. replace (Z.to_nat (zlen g1)) with (length (map f g1)) by (rewrite map_length; unfold zlen; lia).
    replace (zlen (concat A ++ g0) + zlen (concat B)) with (zlen (map f ((concat A ++ g0) ++ concat B))) by (rewrite LM, zlen_app'; lia). rewrite map_app.
    pose proof (zslice_app (map f (concat A ++ g0) ++ map f (concat B)) (map f g1) (map f (concat C))) as X. rewrite <- !app_assoc in X. rewrite !map_app in *. rewrite <- !app_assoc in *. exact X. }
  assert (SH : forall f : Z * Z -> Z, shift (map f (concat gs)) (total A + zlen g0) (total (A ++ g0 :: B)) (zlen g1) = Some (map f (concat gs'))).
  { intros f. rewrite CC, CC', TO. replace (total A + zlen g0) with (zlen (concat A ++ g0)) by (rewrite zlen_app'; reflexivity).
    rewrite (map_app f (concat A ++ g0)), (map_app f (concat A ++ g0)), (map_app f (concat B)), (map_app f g1), (map_app f g1), (map_app f (concat B)). rewrite <- (LM Z f (concat A ++ g0)), <- (LM Z f (concat B)), <- (LM Z f g1). apply shift_app. }
  rewrite S3, S4, !SL, !SH.
  assert (CB : combine (map fst g1) (map snd g1) = g1) by (rewrite combine_maps; rewrite <- (map_id g1) at 2; apply map_ext; intros []; reflexivity).
  rewrite CB.
  assert (I1 : forall x, In x g1 -> In x (concat gs)) by (intros x I; rewrite CC, !in_app_iff; auto).
  destruct (oputs_spec (children d) (zlen A) g1 (c_ttc c)) as (ttc & O1 & O2 & O3 & O4).
  { intros x I. rewrite S8 by auto. destruct (S6 x (I1 x I)) as (P & Q). nia. }
  rewrite O1. do 4 eexists. split; [reflexivity|].
  assert (NE : ttc <> []) by (intros ->; destruct (c_ttc c); [congruence|unfold zlen in O2; cbn [length] in O2; lia]). split; [|exact NE].
  assert (PM : Permutation (concat gs) (concat gs')).
  { rewrite CC, CC'. apply Permutation_app_head. rewrite !app_assoc. apply Permutation_app_tail. apply Permutation_app_comm. }
  assert (RA : raise (sums 0 (lens gs)) (zlen A) (zlen A + 1 + zlen B) (zlen g1) = sums 0 (lens gs')) by apply raise_sums.
  assert (LG : zlen gs = zlen gs') by (unfold gs, gs'; rewrite !zlen_app', !zlen_cons, !zlen_app', !zlen_cons; lia).
  constructor; cbn [set_corners c_nc c_nt c_ttc c_coff c_ctt c_ctc]; auto.
  - lia.
  - eapply Permutation_NoDup; eauto.
  - intros x I. apply S6. eapply Permutation_in; [symmetry; exact PM|auto].
  - congruence.
  - intros _. rewrite O2. auto.
  - intros j h x E I. pose proof (zget_range _ _ _ E) as R.
    (* a member of another group *)
    assert (KEEP : forall h', zget gs j = Some h' -> In x h' -> j <> zlen A + 1 + zlen B -> zget ttc (children d * fst x + snd x) = Some j).
    { intros h' Eh Ih NJ. rewrite O4; [eapply S9; eauto|]. intros y Iy Ey.
      assert (IC : In x (concat gs)) by (apply in_concat; exists h'; split; [eapply zget_in; eauto|auto]).
      apply (index_inj d (c_nt c)) in Ey; [|apply S6; auto|apply S6; auto]. subst y.
      pose proof (S9 _ _ _ Eh Ih) as Z1. pose proof (S9 _ _ _ G1 Iy) as Z2. rewrite Z1 in Z2. apply some_eq in Z2. auto. }
    unfold gs' in E. destruct (j <? zlen A) eqn:J1.
    { rewrite zg_app1 in E by lia. apply (KEEP h); [|auto|lia]. unfold gs. rewrite zg_app1 by lia. auto. }
    rewrite zg_app2 in E by lia. destruct (j =? zlen A) eqn:J2.
    { replace (j - zlen A) with 0 in E by lia. cbn in E. injection E as <-. assert (j = zlen A) by lia. subst j. apply in_app_or in I as [I|I]; [|auto].
      apply (KEEP g0); auto. lia. }
    rewrite zget_cons in E by lia. destruct (j <? zlen A + 1 + zlen B) eqn:J3.
    { rewrite zg_app1 in E by lia. apply (KEEP h); [|auto|lia]. unfold gs. rewrite zg_app2, zget_cons, zg_app1 by lia. auto. }
    rewrite zg_app2 in E by lia. destruct (j =? zlen A + 1 + zlen B) eqn:J4.
    { replace (j - zlen A - 1 - zlen B) with 0 in E by lia. cbn in E. injection E as <-. destruct I. }
    rewrite zget_cons in E by lia. apply (KEEP h); [|auto|lia]. unfold gs. rewrite zg_app2, zget_cons, zg_app2, zget_cons by lia. auto.
  - intros x _ P Q N. rewrite O4; [apply S10; auto; intros I; apply N; eapply Permutation_in; eauto|].
    intros y Iy Ey. apply (index_inj d (c_nt c)) in Ey; [|apply S6; auto|auto]. subst y. apply N. eapply Permutation_in; [exact PM|auto].
Qed.
