(** * Neighbors outside of the tree, for the ghost layer *)

From Coq Require Import ZArith List Bool Lia ZifyBool.
From Verif Require Import Quad Spec Morton ZBits Interval QuadLemmas CompareLemmas DescLemmas SearchLocal Neighbor RangeBound RangeBoundLemmas PropertiesNeighbor Transform PropertiesTransform
  Conn Partition Comm OwnerLemmas Ghost GhostSpec GhostGeom.
Import ListNotations.
Open Scope Z_scope.

(** ** Objects *)
Definition oeqb (o o' : obj) : bool :=
  let '(a, b, e) := o in let '(a', b', e') := o' in
  let eqo (x y : option bool) := match x, y with None, None => true | Some x, Some y => Bool.eqb x y | _, _ => false end in
  eqo a a' && eqo b b' && eqo e e'.
Lemma oeqb_eq o o' : oeqb o o' = true <-> o = o'.
Proof.
  destruct o as ((a, b), e), o' as ((a', b'), e'). split.
  - destruct a as [[]|], a' as [[]|], b as [[]|], b' as [[]|], e as [[]|], e' as [[]|]; cbn; congruence.
  - intros [= <- <- <-]. destruct a as [[]|], b as [[]|], e as [[]|]; reflexivity.
Qed.
Lemma obj_ext d o o' : (forall i, axis d i -> og o i = og o' i) -> (d = D2 -> og o 2 = None /\ og o' 2 = None) -> o = o'.
Proof.
  rewrite (all_axes d (fun i => og o i = og o' i)). destruct o as ((a, b), e), o' as ((a', b'), e'). cbn [og]. intros (A & B & E) Z2.
  change (a = a') in A. change (b = b') in B. subst a' b'. f_equal. destruct d; [|exact E]. destruct (Z2 eq_refl) as (X & Y). cbn in X, Y. congruence.
Qed.

Lemma face_inj d f f' : 0 <= f < faces d -> 0 <= f' < faces d -> face_obj f = face_obj f' -> f = f'.
Proof.
  intros Hf Hf' E. assert (A : zall 6 (fun f => zall 6 (fun f' => negb (oeqb (face_obj f) (face_obj f')) || (f =? f'))) = true) by (vm_compute; reflexivity).
  assert (faces d <= 6) by (destruct d; cbn; lia).
  pose proof (zall_spec _ _ f A ltac:(lia)) as A1. cbv beta in A1. pose proof (zall_spec _ _ f' A1 ltac:(lia)) as A2. cbv beta in A2.
  apply oeqb_eq in E. rewrite E in A2. cbn [negb orb] in A2. lia.
Qed.
Lemma edge_inj e e' : 0 <= e < 12 -> 0 <= e' < 12 -> edge_obj e = edge_obj e' -> e = e'.
Proof.
  intros He He' E. assert (A : zall 12 (fun f => zall 12 (fun f' => negb (oeqb (edge_obj f) (edge_obj f')) || (f =? f'))) = true) by (vm_compute; reflexivity).
  pose proof (zall_spec _ _ e A He) as A1. cbv beta in A1. pose proof (zall_spec _ _ e' A1 He') as A2. cbv beta in A2.
  apply oeqb_eq in E. rewrite E in A2. cbn [negb orb] in A2. lia.
Qed.
Lemma corner_inj d k k' : 0 <= k < children d -> 0 <= k' < children d -> corner_obj d k = corner_obj d k' -> k = k'.
Proof.
  intros Hk Hk' E. assert (A : zall (children d) (fun f => zall (children d) (fun f' => negb (oeqb (corner_obj d f) (corner_obj d f')) || (f =? f'))) = true) by (destruct d; vm_compute; reflexivity).
  pose proof (zall_spec _ _ k A Hk) as A1. cbv beta in A1. pose proof (zall_spec _ _ k' A1 Hk') as A2. cbv beta in A2.
  apply oeqb_eq in E. rewrite E in A2. cbn [negb orb] in A2. lia.
Qed.
Lemma dirs_face f : dirs (face_obj f) = 1.
Proof. unfold face_obj. destruct (f / 2) as [|[]|]; reflexivity. Qed.
Lemma dirs_edge e : dirs (edge_obj e) = 2.
Proof. unfold edge_obj. destruct (e / 4) as [|[]|]; reflexivity. Qed.
Lemma dirs_corner d k : dirs (corner_obj d k) = nd d.
Proof. destruct d; reflexivity. Qed.

Lemma og_face f i : 0 <= f < 6 -> 0 <= i < 3 -> og (face_obj f) i = if i =? f / 2 then Some (Z.odd f) else None.
Proof.
  intros Hf Hi. assert (f = 0 \/ f = 1 \/ f = 2 \/ f = 3 \/ f = 4 \/ f = 5) as C by lia. assert (i = 0 \/ i = 1 \/ i = 2) as D by lia.
  destruct C as [->|[->|[->|[->|[->| ->]]]]]; destruct D as [->|[->| ->]]; reflexivity.
Qed.
Lemma og_edge e i : 0 <= e < 12 -> 0 <= i < 3 -> og (edge_obj e) i = None <-> i = e / 4.
Proof.
  intros He Hi. assert (A : zall 12 (fun e => zall 3 (fun i => Bool.eqb match og (edge_obj e) i with None => true | _ => false end (i =? e / 4))) = true) by (vm_compute; reflexivity).
  pose proof (zall_spec _ _ e A He) as A1. cbv beta in A1. pose proof (zall_spec _ _ i A1 Hi) as A2. cbv beta in A2. apply eqb_prop in A2.
  destruct (og (edge_obj e) i); split; intros; try discriminate; try lia; reflexivity.
Qed.

(** the direction of a face, edge or corner, for all directions *)
Lemma dir_cases d v : (d = D2 -> og v 2 = None) -> 1 <= dirs v ->
  (exists f, 0 <= f < faces d /\ v = face_obj f) \/ (d = D3 /\ exists e, 0 <= e < 12 /\ v = edge_obj e) \/ (exists k, 0 <= k < children d /\ v = corner_obj d k).
Proof.
  destruct v as ((a, b), e). cbn [og Z.eqb]. intros HZ HD.
  assert (F : forall f, 0 <= f < faces d -> (a, b, e) = face_obj f -> (exists f, 0 <= f < faces d /\ (a, b, e) = face_obj f)) by eauto.
  destruct d; cbn [faces children] in *.
  - specialize (HZ eq_refl). cbn in HZ. subst e.
    destruct a as [[]|], b as [[]|]; cbn in HD; try lia;
    first [ left; first [exists 0; split; [lia|reflexivity]|exists 1; split; [lia|reflexivity]|exists 2; split; [lia|reflexivity]|exists 3; split; [lia|reflexivity]]
          | right; right; first [exists 0; split; [lia|reflexivity]|exists 1; split; [lia|reflexivity]|exists 2; split; [lia|reflexivity]|exists 3; split; [lia|reflexivity]]].
  - destruct a as [[]|], b as [[]|], e as [[]|]; cbn in HD; try lia;
    first [ left; first [exists 0; split; [lia|reflexivity]|exists 1; split; [lia|reflexivity]|exists 2; split; [lia|reflexivity]|exists 3; split; [lia|reflexivity]|exists 4; split; [lia|reflexivity]|exists 5; split; [lia|reflexivity]]
          | right; left; split; [reflexivity|]; first [exists 0; split; [lia|reflexivity]|exists 1; split; [lia|reflexivity]|exists 2; split; [lia|reflexivity]|exists 3; split; [lia|reflexivity]
            |exists 4; split; [lia|reflexivity]|exists 5; split; [lia|reflexivity]|exists 6; split; [lia|reflexivity]|exists 7; split; [lia|reflexivity]
            |exists 8; split; [lia|reflexivity]|exists 9; split; [lia|reflexivity]|exists 10; split; [lia|reflexivity]|exists 11; split; [lia|reflexivity]]
          | right; right; first [exists 0; split; [lia|reflexivity]|exists 1; split; [lia|reflexivity]|exists 2; split; [lia|reflexivity]|exists 3; split; [lia|reflexivity]
            |exists 4; split; [lia|reflexivity]|exists 5; split; [lia|reflexivity]|exists 6; split; [lia|reflexivity]|exists 7; split; [lia|reflexivity]]].
Qed.

(** ** Outside of the tree *)
Lemma og_out d s i : axis d i -> og (out d s) i = out_axis (vget (cv s) i).
Proof.
  unfold axis. intros A. unfold out. destruct (Z.eq_dec i 0) as [->|]; [reflexivity|]. destruct (Z.eq_dec i 1) as [->|]; [reflexivity|].
  destruct d; cbn [nd] in A; [lia|]. assert (i = 2) by lia. subst. reflexivity.
Qed.
Lemma out_D2 d s : d = D2 -> og (out d s) 2 = None.
Proof. intros ->. reflexivity. Qed.
Lemma out_axis_none a : out_axis a = None <-> 0 <= a < 2 ^ 30.
Proof. unfold out_axis. destruct (a <? 0) eqn:E; [split; [discriminate|lia]|]. destruct (2 ^ 30 <=? a) eqn:F; [split; [discriminate|lia]|]. split; [lia|reflexivity]. Qed.

Lemma out_none d s : ext d s -> (out d s = (None, None, None) <-> wf d s).
Proof.
  intros E. rewrite wf_comp. split.
  - intros H. split; [exact E|]. intros i A. apply out_axis_none. rewrite <- (og_out d s i A), H. unfold og. destruct (i =? 0), (i =? 1); reflexivity.
  - intros (_ & H). apply (obj_ext d).
    + intros i A. rewrite og_out by exact A. rewrite (proj2 (out_axis_none _) (H i A)). unfold og. destruct (i =? 0), (i =? 1); reflexivity.
    + intros ->. split; reflexivity.
Qed.

Lemma inbox_out d n s : ext d n -> ext d s -> inbox d n s -> out d n = out d s.
Proof.
  intros En Es I. apply (obj_ext d); [|intros ->; split; reflexivity]. intros i A. rewrite !og_out by exact A.
  pose proof Es as (Ls & _). pose proof (side_pos (ql s) ltac:(lia)). specialize (I i A).
  apply ext_comp in En. destruct En as (L & Dv & _). pose proof (side_pos (ql n) ltac:(lia)).
  pose proof (mul_up (ql n) (vget (cv n) i) 0 ltac:(lia) (Dv i A) ltac:(auto)) as M0.
  pose proof (mul_up (ql n) (vget (cv n) i) (2 ^ 30) ltac:(lia) (Dv i A) ltac:(auto)) as M1.
  unfold out_axis. destruct (vget (cv n) i <? 0) eqn:E1; [replace (vget (cv s) i <? 0) with true by lia; reflexivity|].
  replace (vget (cv s) i <? 0) with false by lia. destruct (2 ^ 30 <=? vget (cv n) i) eqn:E2; [replace (2 ^ 30 <=? vget (cv s) i) with true by lia; reflexivity|].
  replace (2 ^ 30 <=? vget (cv s) i) with false by lia. reflexivity.
Qed.

Lemma nb_axis d q v i : axis d i -> vget (cv (nb d q v)) i = vget (cv q) i + sg (og v i) * side (ql q).
Proof.
  unfold axis. intros A. destruct v as ((a, b), e). destruct (Z.eq_dec i 0) as [->|]; [reflexivity|]. destruct (Z.eq_dec i 1) as [->|]; [reflexivity|].
  destruct d; cbn [nd] in A; [lia|]. assert (i = 2) by lia. subst. reflexivity.
Qed.
Lemma nb_out d q v i : wf d q -> axis d i -> (og (out d (nb d q v)) i = None \/ og (out d (nb d q v)) i = og v i) /\
  - 2 ^ 30 <= vget (cv (nb d q v)) i < 2 ^ 31 /\ (og v i = None -> og (out d (nb d q v)) i = None).
Proof.
  intros W A. rewrite og_out, nb_axis by exact A. apply wf_comp in W. destruct W as (E & R). specialize (R i A).
  apply ext_comp in E. destruct E as (L & Dv & _). pose proof (mul_up (ql q) (vget (cv q) i) (2 ^ 30) ltac:(lia) (Dv i A) ltac:(auto) ltac:(lia)) as M.
  pose proof (side_pos (ql q) ltac:(lia)) as SP. pose proof (side_le (ql q) ltac:(lia)) as SL. change (2 ^ 31) with (2 * 2 ^ 30). set (h := side (ql q)) in *. set (x := vget (cv q) i) in *. clearbody h x.
  unfold out_axis. destruct (og v i) as [[]|]; cbn [sg].
  - split; [|split; [lia|discriminate]]. replace (x + 1 * h <? 0) with false by lia. destruct (2 ^ 30 <=? x + 1 * h); auto.
  - split; [|split; [lia|discriminate]]. destruct (x + -1 * h <? 0); auto. replace (2 ^ 30 <=? x + -1 * h) with false by lia. auto.
  - replace (x + 0 * h <? 0) with false by lia. replace (2 ^ 30 <=? x + 0 * h) with false by lia. split; [auto|]. split; [lia|reflexivity].
Qed.

Lemma out_beyond d f n : 0 <= f < faces d -> ext d n -> (forall i, axis d i -> - 2 ^ 30 <= vget (cv n) i < 2 ^ 31) -> out d n = face_obj f -> beyond d f n.
Proof.
  intros Hf E R O. apply beyond_comp. split; [exact E|]. intros i A. specialize (R i A).
  assert (O' : out_axis (vget (cv n) i) = if i =? f / 2 then Some (Z.odd f) else None).
  { rewrite <- (og_out d n i A), O. apply og_face; [destruct d; cbn [faces] in Hf; lia|]. unfold axis in A. destruct d; cbn [nd] in A; lia. }
  unfold shift_lo. unfold out_axis in O'. destruct (i =? f / 2).
  - rewrite Zodd_mod in O'. pose proof (Z.mod_pos_bound f 2 ltac:(lia)). change (2 ^ 31) with (2 * 2 ^ 30) in R.
    destruct (vget (cv n) i <? 0) eqn:E1; [injection O' as O'; replace (f mod 2 =? 0) with true; [lia|]; destruct (Zeq_bool (f mod 2) 1) eqn:Z1; [discriminate|apply Zeq_bool_neq in Z1; lia]|].
    destruct (2 ^ 30 <=? vget (cv n) i) eqn:E2; [|discriminate]. injection O' as O'. symmetry in O'. apply Zeq_bool_eq in O'. replace (f mod 2 =? 0) with false by lia. lia.
  - destruct (vget (cv n) i <? 0) eqn:E1; [discriminate|]. destruct (2 ^ 30 <=? vget (cv n) i) eqn:E2; [discriminate|]. lia.
Qed.

(** the tests of the code *)
Lemma outside_ax_iff a : outside_ax a = match out_axis a with None => false | Some _ => true end.
Proof. unfold outside_ax, out_axis. change ROOT_LEN with (2 ^ 30). destruct (a <? 0) eqn:E; [reflexivity|]. rewrite Z.geb_leb. destruct (2 ^ 30 <=? a); reflexivity. Qed.
Lemma inside_iff d n : ext d n -> is_inside_root d n = oeqb (out d n) (None, None, None).
Proof.
  intros E. unfold is_inside_root, out, oeqb.
  assert (AX : forall a, ((a >=? 0) && (a <? ROOT_LEN)) = match out_axis a with None => true | Some _ => false end).
  { intros a. unfold out_axis. change ROOT_LEN with (2 ^ 30). destruct (a <? 0) eqn:E1; [lia|]. destruct (2 ^ 30 <=? a) eqn:E2; lia. }
  rewrite !AX. destruct (out_axis (qx n)), (out_axis (qy n)); cbn [andb]; try reflexivity.
  destruct d; cbn [is3]; [destruct E as (_ & _ & _ & Z0); lia|destruct (out_axis (qz n)); reflexivity].
Qed.
Lemma outside_face_iff d n : is_outside_face d n = (dirs (out d n) =? 1).
Proof.
  unfold is_outside_face, out, dirs. rewrite !outside_ax_iff. destruct d; cbn [is3]; destruct (out_axis (qx n)), (out_axis (qy n)); try (destruct (out_axis (qz n))); reflexivity.
Qed.

(** ** The image of a quadrant in the neighbor trees *)
Section Seen.
  Variables (d : dim) (c : conn) (t nt : Z) (s s' : quad).
  Lemma seen_in : out d s = (None, None, None) -> (seen_as d c t s nt s' <-> nt = t /\ s' = s).
  Proof.
    intros O. unfold seen_as. rewrite O. split; [|intros (-> & ->); left; auto].
    intros [(_ & A)|[(f & ft & _ & E & _)|[(_ & e & ets & ne & fl & _ & E & _)|(k & cts & nc & _ & E & _)]]]; [exact A| | |];
      exfalso; [pose proof (dirs_face f) as D|pose proof (dirs_edge e) as D|pose proof (dirs_corner d k) as D]; rewrite <- E in D; destruct d; discriminate D.
  Qed.
  Lemma seen_face f : 0 <= f < faces d -> out d s = face_obj f ->
    (seen_as d c t s nt s' <-> exists ft, find_face_transform d c t f = Some (Some (nt, ft)) /\ s' = transform_face d s ft).
  Proof.
    intros Hf O. unfold seen_as. rewrite O. pose proof (dirs_face f) as D. split.
    - intros [(E & _)|[(f' & ft & Hf' & E & A)|[(_ & e & ets & ne & fl & _ & E & _)|(k & cts & nc & _ & E & _)]]].
      + rewrite E in D. discriminate.
      + rewrite (face_inj d f f' Hf Hf' E). exists ft. exact A.
      + rewrite E, dirs_edge in D. discriminate.
      + rewrite E, dirs_corner in D. destruct d; discriminate.
    - intros (ft & A & B). right. left. exists f, ft. auto.
  Qed.
  Lemma seen_edge e : d = D3 -> 0 <= e < 12 -> out d s = edge_obj e ->
    (seen_as d c t s nt s' <-> exists ets ne fl, find_edge_transform c t e = Some ets /\ In (nt, ne, fl) ets /\ s' = transform_edge s e ne fl).
  Proof.
    intros D3' He O. unfold seen_as. rewrite O. pose proof (dirs_edge e) as D. split.
    - intros [(E & _)|[(f' & ft & Hf' & E & A)|[(_ & e' & ets & ne & fl & He' & E & A)|(k & cts & nc & _ & E & _)]]].
      + rewrite E in D. discriminate.
      + rewrite E, dirs_face in D. discriminate.
      + rewrite (edge_inj e e' He He' E). exists ets, ne, fl. exact A.
      + rewrite E, dirs_corner, D3' in D. discriminate.
    - intros (ets & ne & fl & A). right. right. left. split; [exact D3'|]. exists e, ets, ne, fl. tauto.
  Qed.
  Lemma seen_corner k : 0 <= k < children d -> out d s = corner_obj d k ->
    (seen_as d c t s nt s' <-> exists cts nc, find_corner_transform d c t k = Some cts /\ In (nt, nc) cts /\ s' = transform_corner d s nc true).
  Proof.
    intros Hk O. unfold seen_as. rewrite O. pose proof (dirs_corner d k) as D. split.
    - intros [(E & _)|[(f' & ft & Hf' & E & A)|[(D3' & e' & ets & ne & fl & He' & E & A)|(k' & cts & nc & Hk' & E & A)]]].
      + rewrite E in D. destruct d; discriminate.
      + rewrite E, dirs_face in D. destruct d; discriminate.
      + rewrite E, dirs_edge, D3' in D. discriminate.
      + rewrite (corner_inj d k k' Hk Hk' E). exists cts, nc. exact A.
    - intros (cts & nc & A). right. right. right. exists k, cts, nc. tauto.
  Qed.
End Seen.

(** ** Across an edge *)
Lemma te_desc s e ne fl i : 0 <= e < 12 -> 0 <= ne < 12 -> 0 <= i < 3 -> ql s <= 29 ->
  vget (cv (transform_edge s e ne fl)) i =
  match og (edge_obj ne) i with
  | None => if fl =? 0 then vget (cv s) (e / 4) else 2 ^ 30 - side (ql s) - vget (cv s) (e / 4)
  | Some false => 0
  | Some true => 2 ^ 30 - side (ql s)
  end.
Proof.
  intros He Hn Hi L. unfold transform_edge. rewrite QLEN_side by lia. change ROOT_LEN with (2 ^ 30). set (h := side (ql s)).
  assert (M : match e / 4 with 0 => qx s | 1 => qy s | _ => qz s end = vget (cv s) (e / 4)).
  { assert (e / 4 = 0 \/ e / 4 = 1 \/ e / 4 = 2) as C.
    { assert (0 <= e / 4 < 3) by (split; [apply Z.div_pos; lia|apply Z.div_lt_upper_bound; lia]). lia. }
    destruct C as [->|[->| ->]]; reflexivity. }
  rewrite M. set (my := vget (cv s) (e / 4)). clearbody h my.
  set (A := if fl =? 0 then my else 2 ^ 30 + - h - my).
  replace (if fl =? 0 then my else 2 ^ 30 - h - my) with A by (unfold A; destruct (fl =? 0); lia). clearbody A.
  replace (2 ^ 30 - h) with (2 ^ 30 + - h) by lia. set (B := 2 ^ 30 + - h). clearbody B.
  assert (ne = 0 \/ ne = 1 \/ ne = 2 \/ ne = 3 \/ ne = 4 \/ ne = 5 \/ ne = 6 \/ ne = 7 \/ ne = 8 \/ ne = 9 \/ ne = 10 \/ ne = 11) as C by lia.
  assert (i = 0 \/ i = 1 \/ i = 2) as D by lia.
  destruct C as [->|[->|[->|[->|[->|[->|[->|[->|[->|[->|[->| ->]]]]]]]]]]]; destruct D as [->|[->| ->]]; reflexivity.
Qed.
Lemma te_level s e ne fl : ql (transform_edge s e ne fl) = ql s.
Proof. reflexivity. Qed.

Lemma te_wf s e ne fl : 0 <= e < 12 -> 0 <= ne < 12 -> ext D3 s -> 0 <= vget (cv s) (e / 4) < 2 ^ 30 -> wf D3 (transform_edge s e ne fl).
Proof.
  intros He Hn E R. apply wf_comp. apply ext_comp in E. destruct E as (L & Dv & _).
  assert (A4 : axis D3 (e / 4)).
  { unfold axis. cbn [nd]. split; [apply Z.div_pos; lia|apply Z.div_lt_upper_bound; lia]. }
  destruct (Dv (e / 4) A4) as (X & EX). pose proof (side_mul (ql s) ltac:(lia)) as SM. pose proof (side_pos (ql s) ltac:(lia)) as SP. pose proof (side_le (ql s) ltac:(lia)).
  pose proof (mul_up (ql s) _ (2 ^ 30) ltac:(lia) (Dv (e / 4) A4) ltac:(auto) ltac:(lia)) as MU.
  split.
  - apply ext_comp. rewrite te_level. split; [exact L|]. split; [|discriminate]. intros i A. rewrite te_desc by (auto; unfold axis in A; cbn [nd] in A; lia).
    destruct (og (edge_obj ne) i) as [[]|].
    + exists (2 ^ ql s - 1). lia.
    + exists 0. lia.
    + destruct (fl =? 0); [exists X; exact EX|]. exists (2 ^ ql s - 1 - X). lia.
  - intros i A. rewrite te_desc by (auto; unfold axis in A; cbn [nd] in A; lia). destruct (og (edge_obj ne) i) as [[]|]; [lia|lia|]. destruct (fl =? 0); lia.
Qed.

Lemma quad_cv q r : ql q = ql r -> (forall i, axis D3 i -> vget (cv q) i = vget (cv r) i) -> q = r.
Proof.
  rewrite (all_axes D3 (fun i => vget (cv q) i = vget (cv r) i)). destruct q, r. cbn. intros -> (A & B & C). f_equal; assumption.
Qed.

Lemma te_cells n e ne fl s' : 0 <= e < 12 -> 0 <= ne < 12 -> ext D3 n -> 0 <= vget (cv n) (e / 4) < 2 ^ 30 -> wf D3 s' -> ql s' = 29 ->
  (inbox D3 (transform_edge n e ne fl) s' /\ touches D3 (transform_edge n e ne fl) s' (edge_obj ne) <->
   exists s, ext D3 s /\ ql s = 29 /\ inbox D3 n s /\ touches D3 n s (vflip (edge_obj e)) /\ s' = transform_edge s e ne fl).
Proof.
  intros He Hn En R Ws Ls.
  assert (A4 : axis D3 (e / 4)).
  { unfold axis. cbn [nd]. split; [apply Z.div_pos; lia|apply Z.div_lt_upper_bound; lia]. }
  assert (B4 : axis D3 (ne / 4)).
  { unfold axis. cbn [nd]. split; [apply Z.div_pos; lia|apply Z.div_lt_upper_bound; lia]. }
  pose proof En as En'. apply ext_comp in En'. destruct En' as (L & Dv & _). destruct (side_even (ql n) L) as (h & Eh & Hh).
  assert (FLIP : forall o i, og (vflip o) i = oflip (og o i)).
  { intros o i. destruct o as ((a, b), x). unfold og, vflip. destruct (i =? 0), (i =? 1); reflexivity. }
  rewrite !touches_comp. split.
  - intros (I & TT).
    set (my := if fl =? 0 then vget (cv s') (ne / 4) else 2 ^ 30 - 2 - vget (cv s') (ne / 4)).
    set (f := fun i => match og (edge_obj e) i with None => my | Some false => vget (cv n) i + side (ql n) - 2 | Some true => vget (cv n) i end).
    set (s := mkq (f 0) (f 1) (f 2) 29).
    assert (CV : forall i, axis D3 i -> vget (cv s) i = f i).
    { intros i A. unfold axis in A. cbn [nd] in A. assert (i = 0 \/ i = 1 \/ i = 2) as [->|[->| ->]] by lia; reflexivity. }
    assert (FN : f (e / 4) = my).
    { unfold f. rewrite (proj2 (og_edge e (e / 4) He A4) eq_refl). reflexivity. }
    assert (IB : inbox D3 n s).
    { intros i A. rewrite CV by exact A. cbn [ql s]. change (side 29) with 2. unfold f. destruct (og (edge_obj e) i) as [[]|] eqn:OE; [lia|lia|].
      apply og_edge in OE; auto. subst i. specialize (I (ne / 4) B4). rewrite te_desc, te_level, Ls in I by (auto; lia).
      rewrite (proj2 (og_edge ne (ne / 4) Hn B4) eq_refl) in I. change (side 29) with 2 in I. unfold my. destruct (fl =? 0); lia. }
    exists s. split; [|split; [reflexivity|split; [exact IB|split]]].
    + apply ext_comp. split; [cbn; lia|]. split; [|discriminate]. intros i A. rewrite CV by exact A. cbn [ql s]. change (side 29) with 2.
      destruct (Dv i A) as (X & EX). rewrite Eh in EX. apply wf_ext in Ws. destruct Ws as (Es & _). apply ext_comp in Es. destruct Es as (_ & Ds & _).
      destruct (Ds (ne / 4) B4) as (Y & EY). rewrite Ls in EY. change (side 29) with 2 in EY. unfold f.
      destruct (og (edge_obj e) i) as [[]|]; [exists (X * h); lia|exists (X * h + h - 1); lia|]. unfold my. destruct (fl =? 0); [exists Y; exact EY|exists (2 ^ 29 - 1 - Y); change (2 ^ 30) with (2 * 2 ^ 29); lia].
    + apply touches_comp. intros i A. rewrite FLIP, CV by exact A. cbn [ql s]. unfold f. destruct (og (edge_obj e) i) as [[]|]; cbn [oflip negb touch_axis]; change (side 29) with 2; lia.
    + apply quad_cv; [rewrite te_level; exact Ls|]. intros i A. rewrite te_desc by (auto; unfold axis in A; cbn [nd] in A; cbn [ql s]; lia).
      rewrite CV, FN by exact A4. cbn [ql s]. change (side 29) with 2. specialize (TT i A). rewrite te_desc, te_level in TT by (auto; unfold axis in A; cbn [nd] in A; lia).
      rewrite Ls in TT. destruct (og (edge_obj ne) i) as [[]|] eqn:OE; cbn [touch_axis] in TT; change (side 29) with 2 in TT; [lia|lia|].
      apply og_edge in OE; auto. subst i. unfold my. destruct (fl =? 0); lia.
  - intros (s & Es & L29 & I & TT & ->). split.
    + intros i A. rewrite !te_desc, !te_level by (auto; unfold axis in A; cbn [nd] in A; lia). rewrite L29. change (side 29) with 2.
      specialize (I (e / 4) A4). rewrite L29 in I. change (side 29) with 2 in I. destruct (og (edge_obj ne) i) as [[]|]; [lia|lia|]. destruct (fl =? 0); lia.
    + intros i A. rewrite !te_desc, !te_level by (auto; unfold axis in A; cbn [nd] in A; lia). rewrite L29.
      destruct (og (edge_obj ne) i) as [[]|]; cbn [touch_axis]; change (side 29) with 2; lia.
Qed.

(** ** At a corner there is one smallest quadrant *)
Definition past (b : bool) (x h : Z) : Z := if b then x + h else x - 2.
Lemma corner_cell_eq d q k : ql q <= 29 -> 0 <= k < children d ->
  corner_neighbor d (corner_descendant d q k QMAXLEVEL) k =
  mkq (past (Z.odd k) (qx q) (side (ql q))) (past (Z.odd (k / 2)) (qy q) (side (ql q)))
      (match d with D2 => qz q | D3 => past (Z.odd (k / 4)) (qz q) (side (ql q)) end) 29.
Proof.
  intros L Hk. unfold corner_neighbor, corner_descendant. change QMAXLEVEL with 29. cbn [ql qx qy qz].
  rewrite !QLEN_side by lia. change (side 29) with 2. set (h := side (ql q)). clearbody h.
  destruct d; cbn [is3 children] in *.
  - assert (k = 0 \/ k = 1 \/ k = 2 \/ k = 3) as C by lia.
    destruct C as [->|[->|[->| ->]]];
    repeat match goal with |- context [?a / ?b] => let v := eval vm_compute in (a / b) in change (a / b) with v end; cbn -[Z.mul Z.add Z.sub]; unfold past; f_equal; lia.
  - assert (k = 0 \/ k = 1 \/ k = 2 \/ k = 3 \/ k = 4 \/ k = 5 \/ k = 6 \/ k = 7) as C by (change (children D3) with 8 in Hk; lia).
    destruct C as [->|[->|[->|[->|[->|[->|[->| ->]]]]]]];
    repeat match goal with |- context [?a / ?b] => let v := eval vm_compute in (a / b) in change (a / b) with v end; cbn -[Z.mul Z.add Z.sub]; unfold past; f_equal; lia.
Qed.
Lemma corner_cell d q k s : wf d q -> 0 <= k < children d ->
  (beside d q (corner_obj d k) s <-> s = corner_neighbor d (corner_descendant d q k QMAXLEVEL) k).
Proof.
  intros W Hk. pose proof (wf_level d q W) as L. apply wf_ext in W. destruct W as (E & _). destruct (ext_even d q E) as (X & Y & Z0 & EX & EY & EZ).
  rewrite corner_cell_eq by (auto; lia). destruct (side_even (ql q) L) as (h & Eh & Hh). rewrite Eh.
  unfold beside, corner_obj. rewrite Eh.
  assert (EV : forall b x, (exists X, x = 2 * X) -> exists X', past b x (2 * h) = X' * 2).
  { intros [] x (X' & ->); unfold past; [exists (X' + h)|exists (X' - 1)]; lia. }
  assert (PA : forall b x y, at_axis (Some b) x (2 * h) y <-> y = past b x (2 * h)) by (intros [] x y; unfold at_axis, past; lia).
  rewrite !PA. split.
  - intros (Es & Ls & A & B & C). destruct s as [x y z l]. cbn [qx qy qz ql] in *.
    destruct d; [destruct Es as (_ & _ & _ & Ez); destruct E as (_ & _ & _ & Ez'); cbn [qz] in Ez|apply PA in C]; subst; f_equal; congruence.
  - intros ->. cbn [qx qy qz ql]. split; [|split; [reflexivity|split; [reflexivity|split; [reflexivity|destruct d; [reflexivity|apply PA; reflexivity]]]]].
    split; [cbn [ql]; lia|]. cbn [qx qy qz ql]. change (side 29) with 2. split; [apply EV; eauto|]. split; [apply EV; eauto|]. destruct d; [apply E|apply EV; eauto].
Qed.

Lemma tc_wf d s k : ext d s -> ql s = 29 -> 0 <= k < children d -> wf d (transform_corner d s k true) /\ ql (transform_corner d s k true) = 29.
Proof.
  intros E L Hk. unfold transform_corner. rewrite L. change (29 =? MAXLEVEL) with false. cbv iota. change (LAST_OFFSET 29) with (2 ^ 30 - 2). split; [|reflexivity].
  apply is_valid_wf. destruct d; cbn [is3 children] in *.
  - destruct E as (_ & _ & _ & ->). assert (k = 0 \/ k = 1 \/ k = 2 \/ k = 3) as C by lia. destruct C as [->|[->|[->| ->]]]; vm_compute; reflexivity.
  - assert (k = 0 \/ k = 1 \/ k = 2 \/ k = 3 \/ k = 4 \/ k = 5 \/ k = 6 \/ k = 7) as C by (change (children D3) with 8 in Hk; lia).
    destruct C as [->|[->|[->|[->|[->|[->|[->| ->]]]]]]]; vm_compute; reflexivity.
Qed.
