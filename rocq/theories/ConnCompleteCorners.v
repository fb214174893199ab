(** * p4est_connectivity_complete: the corners, and the whole result *)

From Coq Require Import ZArith List Bool Lia ZifyBool Permutation.
From Verif Require Import Quad Spec Neighbor Transform Partition Conn ConnLemmas ConnBounds Permute PermuteArray ConnComplete ConnCompleteArray ConnCompleteFaces ConnCompleteGroups ConnCompleteValid ConnCompleteEdges.
Import ListNotations.
Open Scope Z_scope.

Lemma edge_loop_corners c nc a b e g t ed ae : forall n i flip, edge_loop (set_corners c nc a b e g) t ed ae n i flip = edge_loop c t ed ae n i flip.
Proof.
  induction n as [|n IH]; intros i flip; cbn [edge_loop set_corners c_ett c_ete c_tte]; [reflexivity|].
  destruct (zget (c_ett c) i); [|reflexivity]. destruct (zget (c_ete c) i); [|reflexivity]. destruct (zget (c_tte c) (z * 12 + Z.rem z0 12)); [|reflexivity].
  destruct (negb (z1 =? ae)); [reflexivity|]. destruct ((z =? t) && (Z.rem z0 12 =? ed)); [|apply IH]. destruct (negb (flip =? -1) && (Z.quot z0 12 =? flip)); [reflexivity|apply IH].
Qed.
Lemma valid_edge_corners c nc a b e g n t ed : valid_edge (set_corners c nc a b e g) n t ed = valid_edge c n t ed.
Proof.
  unfold valid_edge. change (find_edge_transform (set_corners c nc a b e g) t ed) with (find_edge_transform c t ed). destruct (find_edge_transform c t ed); [|reflexivity].
  cbn [set_corners c_tte c_ne c_eoff]. destruct (zget (c_tte c) (t * 12 + ed)) as [ae|]; [|reflexivity]. cbn [with_]. destruct (in_range ae (-1) (c_ne c)); [|reflexivity]. cbn [andthen].
  destruct (ae =? -1); [reflexivity|]. destruct (zget (c_eoff c) ae); [|reflexivity]. cbn [with_]. destruct (zget (c_eoff c) (ae + 1)); [|reflexivity]. cbn [with_].
  rewrite edge_loop_corners. reflexivity.
Qed.

(** the edges of a connectivity are in order *)
Definition edges_good (c : conn) (num_ett : Z) : Prop :=
  zget (c_eoff c) (c_ne c) = Some num_ett /\
  (forall i, 0 <= i < num_ett -> valid_pair (c_ett c) (c_ete c) (c_nt c) 24 i = Some true) /\
  (0 < c_ne c -> forall t e, 0 <= t < c_nt c -> 0 <= e < 12 -> valid_edge c num_ett t e = Some true) /\
  (forall a, 0 <= a < c_ne c -> valid_offset (c_eoff c) a = Some true) /\
  indices_ok (c_ne c) (c_tte c) (c_eoff c).

Section Corners.
  Variables (d : dim) (c2 : conn) (ttv : list Z) (ne : Z).
  Hypothesis AL : allocated d c2.
  Hypothesis FV : forall t f, 0 <= t < c_nt c2 -> 0 <= f < faces d -> valid_face d c2 t f = Some true.
  Hypothesis EG : d = D3 -> edges_good c2 ne.

  Lemma all_corners_in x : In x (all_corners d (c_nt c2)) <-> 0 <= fst x < c_nt c2 /\ 0 <= snd x < children d.
  Proof. destruct x. unfold all_corners. rewrite in_prod_iff, !below_in. reflexivity. Qed.
  Lemma distinct_ok x : In x (all_corners d (c_nt c2)) -> corner_distinct d c2 x <> None.
  Proof.
    intros I. apply all_corners_in in I as (Ht & Hk). unfold corner_distinct.
    pose proof (corner_distinct_ok d c2 AL (fst x) Ht (fun f Hf => FV (fst x) f Ht Hf) (snd x) Hk) as CD.
    destruct (corner_faces_distinct d c2 (fst x) (snd x)) as [l|]; [|congruence]. destruct (is3 d) eqn:D; [|discriminate].
    assert (D' : d = D3) by (destruct d; [discriminate|auto]).
    apply (corner_edges_ok d c2 AL ne); auto; try (intros _; apply (EG D')).
    - intros _ PE e He. destruct (EG D') as (_ & _ & V & _). apply V; auto.
    - rewrite D' in Hk. exact Hk.
  Qed.
  Lemma creal_ok g : In g (map (users d ttv (c_nt c2)) (below (c_nv c2))) -> corner_real d c2 g <> None.
  Proof.
    intros Ig. unfold corner_real. destruct (length g <=? 1)%nat; [discriminate|]. apply some_nonempty_ok. intros x Ix. unfold corner_internal.
    apply in_map_iff in Ig as (v & <- & _). apply (users_spec d ttv (c_nt c2) 0) in Ix as (Ix & _). pose proof (distinct_ok x Ix). destruct (corner_distinct d c2 x); congruence.
  Qed.

  Lemma corners_done : exists gs ttc off ts cs, corner_phase d ttv c2 = Some (set_corners c2 (zlen gs) ttc off ts cs) /\
    ofilter (corner_real d c2) (map (users d ttv (c_nt c2)) (below (c_nv c2))) = Some gs /\
    (forall x, In x (concat gs) -> 0 <= fst x < c_nt c2 /\ 0 <= snd x < children d) /\ NoDup (concat gs) /\
    arranged (children d) (c_nt c2) snd gs ttc off ts cs.
  Proof.
    unfold corner_phase. pose proof (ofilter_some (corner_real d c2) _ creal_ok) as OS.
    destruct (ofilter (corner_real d c2) (map (users d ttv (c_nt c2)) (below (c_nv c2)))) as [gs|] eqn:OF; [|congruence].
    destruct (users_spec d ttv (c_nt c2) (c_nv c2)) as (UN & UI).
    assert (R : forall x, In x (concat gs) -> 0 <= fst x < c_nt c2 /\ 0 <= snd x < children d).
    { intros x I. apply in_concat in I as (g & Ig & Ix). apply (ofilter_in _ _ _ OF) in Ig as (Ig & _). apply in_map_iff in Ig as (v & <- & _).
      apply UI in Ix as (Ix & _). apply all_corners_in. auto. }
    assert (N : NoDup (concat gs)) by (eapply ofilter_nodup; [exact OF|auto]).
    destruct (assemble_arranged (children d) (c_nt c2) snd gs ltac:(destruct d; cbn; lia) (nt_pos d c2 AL) R N) as (ttc & off & ts & cs & E & AR).
    exists gs, ttc, off, ts, cs.
    change (map (map (centry d)) gs) with (map (map (fun x : Z * Z => (children d * fst x + snd x, fst x, snd x))) gs). rewrite E. auto.
  Qed.

  Variables (gs : list (list (Z * Z))) (ttc off ts cs : list Z).
  Hypothesis GR : forall x, In x (concat gs) -> 0 <= fst x < c_nt c2 /\ 0 <= snd x < children d.
  Hypothesis GN : NoDup (concat gs).
  Hypothesis AR : arranged (children d) (c_nt c2) snd gs ttc off ts cs.
  Local Notation r := (set_corners c2 (zlen gs) ttc off ts cs).

  Lemma allocated3 : allocated d r.
  Proof.
    destruct AL as (P1 & P2 & P3 & P4 & P5 & P6 & P7 & P8 & P9 & P10). unfold allocated. cbn [set_corners c_nv c_nt c_ne c_nc c_ttv c_ttt c_ttf c_tte c_eoff c_ett c_ete c_ttc c_coff c_ctt c_ctc].
    pose proof (zlen0 gs). do 8 (split; [auto; lia|]). split; [apply (ar_off _ _ _ _ _ _ _ _ AR)|]. intros _.
    split; [rewrite (ar_nm _ _ _ _ _ _ _ _ AR); lia|]. split; [apply (ar_cs _ _ _ _ _ _ _ _ AR)|apply (ar_last _ _ _ _ _ _ _ _ AR)].
  Qed.

  Lemma corner_nf t k : 0 <= t < c_nt c2 -> 0 <= k < children d -> valid_corner d r (zlen ts) t k <> Some false.
  Proof.
    intros Ht Hk. unfold valid_corner. destruct (find_corner_transform d r t k); [|discriminate]. cbn [set_corners c_nc c_ttc c_coff].
    apply nf_with. intros ac E. replace (t * children d + k) with (children d * fst (t, k) + snd (t, k)) in E by (cbn [fst snd]; lia).
    destruct (in_dec (fun a b : Z * Z => ltac:(decide equality; apply Z.eq_dec)) (t, k) (concat gs)) as [J|J].
    - destruct (ar_number _ _ _ _ _ _ _ _ AR _ J) as (j & g & Ej & Ix & F & R). rewrite F in E. injection E as <-.
      replace (in_range j (-1) (zlen gs)) with true by (symmetry; apply range_true; lia). cbn [andthen]. replace (j =? -1) with false by lia.
      destruct (ar_slice _ _ _ _ _ _ _ _ AR j g Ej) as (s & S1 & S2 & S3 & S4 & S5). rewrite S1, S2. cbn [with_].
      assert (LG : 0 < zlen g) by (destruct g; [destruct Ix|unfold zlen; cbn [length]; lia]).
      replace (in_range s 0 (zlen ts) && in_range (s + zlen g) 0 (zlen ts + 1)) with true by (symmetry; apply andb_true_iff; split; apply range_true; lia). cbn [andthen].
      destruct (group_sub gs GN j g Ej) as (NG & SG).
      destruct (corner_loop_group d r t k j g s false) as (res & R1 & R2 & R3).
      + intros i x Ex. destruct (S5 i x Ex) as (Q1 & Q2). cbn [set_corners c_ctt c_ctc c_ttc]. split; [auto|]. split; [auto|].
        replace (fst x * children d + snd x) with (children d * fst x + snd x) by lia. eapply ar_in; eauto. eapply zget_in; eauto.
      + auto.
      + discriminate.
      + replace (Z.to_nat (s + zlen g - s)) with (length g) by (unfold zlen; lia). rewrite R1, R3 by auto. discriminate.
    - rewrite (ar_out _ _ _ _ _ _ _ _ AR (t, k)) in E by auto. injection E as <-.
      replace (in_range (-1) (-1) (zlen gs)) with true by (symmetry; apply range_true; pose proof (zlen0 gs); lia). discriminate.
  Qed.

  Lemma result_valid :
    (c_nv c2 =? 0) = false -> is_null (c_vertices c2) = false -> c_ttv c2 = Some ttv -> zlen ttv = c_nt c2 * children d -> (forall i v, zget ttv i = Some v -> 0 <= v < c_nv c2) ->
    Bool.eqb (negb (is_null (c_tta c2))) (0 <? c_attr c2) = true -> conn_is_valid d r = Some true.
  Proof.
    intros V1 V2 V3 V4 V5 V6.
    assert (CI : indices_ok (zlen gs) ttc off) by (apply (ar_indices _ _ _ _ _ _ _ _ AR); [destruct d; cbn; lia|apply (nt_pos d c2 AL)]).
    assert (NN : conn_is_valid d r <> None).
    { apply conn_in_bounds; [apply allocated3|exact CI|]. intros D'. apply (EG D'). }
    assert (NF : conn_is_valid d r <> Some false); [|destruct (conn_is_valid d r) as [[|]|]; congruence].
    unfold conn_is_valid. apply nf_with. intros ne' ENE. apply nf_with. intros nc' ENC.
    cbn [set_corners c_nv c_nt c_ne c_nc c_vertices c_ttv c_attr c_tta c_ttt c_ttf c_tte c_eoff c_ett c_ete c_ttc c_coff c_ctt c_ctc] in *.
    rewrite (ar_last _ _ _ _ _ _ _ _ AR) in ENC. apply some_eq in ENC. subst nc'.
    rewrite V1, V2, V3, V6. cbn [is_null negb andb orb]. rewrite andb_false_r. cbn [negb].
    assert (NP : 0 <= c_nv c2) by (destruct AL; auto).
    apply nf_andthen; [discriminate|]. apply nf_andthen; [discriminate|]. apply nf_andthen.
    { destruct (is3 d) eqn:D; [|discriminate]. assert (D' : d = D3) by (destruct d; [discriminate|auto]). destruct (EG D') as (E1 & E2 & _).
      rewrite E1 in ENE. apply some_eq in ENE. subst ne'. apply nf_each. intros j Hj. rewrite E2 by lia. discriminate. }
    apply nf_andthen.
    { apply nf_each. intros j Hj. rewrite (ar_pair _ _ _ _ _ _ _ _ AR (children d)); [discriminate| |lia]. auto. }
    apply nf_andthen.
    { replace (0 <? c_nv c2) with true by lia. apply nf_each. intros j Hj. apply nf_with. intros v E. cbn [oget] in E. apply V5 in E.
      replace (in_range v 0 (c_nv c2)) with true by (symmetry; apply range_true; auto). discriminate. }
    apply nf_andthen; [discriminate|]. apply nf_each. intros t Ht. unfold valid_tree.
    cbn [set_corners c_nv c_nt c_ne c_nc c_vertices c_ttv c_attr c_tta c_ttt c_ttf c_tte c_eoff c_ett c_ete c_ttc c_coff c_ctt c_ctc].
    apply nf_andthen.
    { apply nf_each. intros f Hf. change (valid_face d r t f) with (valid_face d c2 t f). rewrite FV by lia. discriminate. }
    apply nf_andthen.
    { destruct (is3 d) eqn:D; [|discriminate]. assert (D' : d = D3) by (destruct d; [discriminate|auto]). destruct (EG D') as (E1 & E2 & E3 & E4 & _).
      rewrite E1 in ENE. apply some_eq in ENE. subst ne'. apply nf_andthen.
      - apply nf_each. intros a Ha. rewrite E4 by lia. discriminate.
      - destruct (0 <? c_ne c2) eqn:PE; [|discriminate]. apply nf_each. intros e He. rewrite valid_edge_corners, E3 by lia. discriminate. }
    apply nf_andthen.
    { apply nf_each. intros a Ha. rewrite (ar_offset _ _ _ _ _ _ _ _ AR) by lia. discriminate. }
    destruct (0 <? zlen gs); [|discriminate]. apply nf_each. intros k Hk. apply corner_nf; lia.
  Qed.
End Corners.

(** ** The whole function *)
Section Whole.
  Variables (d : dim) (c : conn) (ttv : list Z).
  Hypothesis AL : allocated d c.
  Hypothesis VA : conn_is_valid d c = Some true.
  Hypothesis NV : 0 < c_nv c.
  Hypothesis TV : c_ttv c = Some ttv.
  Hypothesis TW : forall x y z, In x (all_faces d (c_nt c)) -> partner d ttv (c_nt c) x y -> partner d ttv (c_nt c) x z -> y = z.
  Hypothesis UN : forall t f nt code, 0 <= t < c_nt c -> 0 <= f < faces d -> (forall y, ~ partner d ttv (c_nt c) (t, f) y) ->
    zget (c_ttt c) (t * faces d + f) = Some nt -> zget (c_ttf c) (t * faces d + f) = Some code ->
    forall y, ~ partner d ttv (c_nt c) (nt, code mod faces d) y.

  (** the phases of the run *)
  Record phases (r : conn) (ttt ttf : list Z) (c2 : conn) (ge gc : list (list (Z * Z))) : Prop := {
    ph_faces : face_phase d ttv c = (ttt, ttf);
    ph_len : zlen ttt = c_nt c * faces d /\ zlen ttf = c_nt c * faces d;
    ph_edges : if is3 d then ofilter (edge_real ttv (set_faces c ttt ttf)) (edge_groups ttv (c_nt c)) = Some ge /\ NoDup (concat ge) /\
        (forall x, In x (concat ge) -> 0 <= fst x < c_nt c /\ 0 <= snd x < 12) /\
        exists tte off ts cs, c2 = set_edges (set_faces c ttt ttf) (zlen ge) tte off ts cs /\ arranged 12 (c_nt c) (ecode ttv) ge tte off ts cs
      else c2 = set_faces c ttt ttf;
    ph_al : allocated d c2;
    ph_fv : forall t f, 0 <= t < c_nt c -> 0 <= f < faces d -> valid_face d c2 t f = Some true;
    ph_eg : d = D3 -> edges_good c2 (zlen (c_ett c2));
    ph_corners : ofilter (corner_real d c2) (map (users d ttv (c_nt c)) (below (c_nv c))) = Some gc /\ NoDup (concat gc) /\
        (forall x, In x (concat gc) -> 0 <= fst x < c_nt c /\ 0 <= snd x < children d) /\
        exists ttc off ts cs, r = set_corners c2 (zlen gc) ttc off ts cs /\ arranged (children d) (c_nt c) snd gc ttc off ts cs;
    ph_valid : conn_is_valid d r = Some true }.

  Lemma complete_phases : exists r ttt ttf c2 ge gc, complete d c = Some r /\ phases r ttt ttf c2 ge gc.
  Proof.
    destruct (faces_done d c ttv AL TW) as (ttt & ttf & FP & L1 & L2 & _ & _).
    pose proof (faces_valid d c ttv AL VA TW UN ttt ttf FP) as FV1. set (c1 := set_faces c ttt ttf) in *.
    assert (AL1 : allocated d c1).
    { destruct AL as (P1 & P2 & P3 & P4 & P5 & P6 & P7 & P8 & P9 & P10). unfold allocated, c1. cbn [set_faces c_nv c_nt c_ne c_nc c_ttv c_ttt c_ttf c_tte c_eoff c_ett c_ete c_ttc c_coff c_ctt c_ctc]. tauto. }
    assert (E2 : exists c2 ge, edge_phase d ttv c1 = Some c2 /\ allocated d c2 /\ (d = D3 -> edges_good c2 (zlen (c_ett c2))) /\
      (c_nt c2 = c_nt c /\ c_nv c2 = c_nv c /\ c_ttt c2 = ttt /\ c_ttf c2 = ttf /\ c_ttv c2 = c_ttv c /\ c_vertices c2 = c_vertices c /\ c_tta c2 = c_tta c /\ c_attr c2 = c_attr c) /\
      if is3 d then ofilter (edge_real ttv c1) (edge_groups ttv (c_nt c)) = Some ge /\ NoDup (concat ge) /\
        (forall x, In x (concat ge) -> 0 <= fst x < c_nt c /\ 0 <= snd x < 12) /\
        exists tte off ts cs, c2 = set_edges c1 (zlen ge) tte off ts cs /\ arranged 12 (c_nt c) (ecode ttv) ge tte off ts cs
      else c2 = c1).
    { destruct (is3 d) eqn:D.
      - assert (D' : d = D3) by (destruct d; [discriminate|auto]). clear D. subst d.
        destruct (edges_done c1 ttv AL1 FV1) as (ge & tte & off & ts & cs & EP & OF & R & N & AR).
        exists (set_edges c1 (zlen ge) tte off ts cs), ge. split; [auto|]. split; [eapply allocated2; eauto|]. split.
        + intros _. unfold edges_good. cbn [set_edges c_nt c_ne c_tte c_eoff c_ett c_ete]. split; [apply (ar_last _ _ _ _ _ _ _ _ AR)|]. split.
          { apply (ar_pair _ _ _ _ _ _ _ _ AR). intros x I. destruct (R x I) as (G1 & G2). split; [auto|]. apply ecode_rem. auto. }
          split; [intros PE t e Ht He; eapply edge_true; eauto|]. split; [apply (ar_offset _ _ _ _ _ _ _ _ AR)|].
          apply (ar_indices _ _ _ _ _ _ _ _ AR); [lia|]. apply (nt_pos D3 c1 AL1).
        + split; [repeat split; auto|]. cbn [is3]. split; [auto|]. split; [auto|]. split; [auto|]. exists tte, off, ts, cs. auto.
      - exists c1, []. unfold edge_phase. rewrite D. split; [auto|]. split; [auto|]. split; [intros ->; discriminate|]. split; [repeat split; auto|auto]. }
    destruct E2 as (c2 & ge & EP & AL2 & EG & (S1 & S2 & S3 & S4 & S5 & S6 & S7 & S8) & GE).
    assert (FV2 : forall t f, 0 <= t < c_nt c2 -> 0 <= f < faces d -> valid_face d c2 t f = Some true).
    { intros t f Ht Hf. rewrite S1 in Ht. rewrite <- (FV1 t f Ht Hf). unfold valid_face. rewrite S1, S3, S4. reflexivity. }
    destruct (corners_done d c2 ttv _ AL2 FV2 EG) as (gc & ttc & off & ts & cs & CP & OF & R & N & AR).
    exists (set_corners c2 (zlen gc) ttc off ts cs), ttt, ttf, c2, ge, gc. rewrite S1, S2 in *. split.
    - unfold complete. rewrite TV, (arrays_are_ok d c ttv AL VA NV TV), FP. fold c1. rewrite EP. exact CP.
    - constructor; auto.
      + split; [auto|]. split; [auto|]. split; [auto|]. exists ttc, off, ts, cs. auto.
      + assert (AR' : arranged (children d) (c_nt c2) snd gc ttc off ts cs) by (rewrite S1; auto).
        eapply (result_valid d c2 ttv (zlen (c_ett c2)) AL2); eauto.
        * intros t f Ht Hf. apply FV2; auto. rewrite <- S1. auto.
        * rewrite S1. auto.
        * rewrite S2. lia.
        * rewrite S6. revert VA. unfold conn_is_valid. intros V. apply with_true in V as (a & _ & V). apply with_true in V as (b & _ & V).
          apply andthen_true in V as (_ & V). apply andthen_true in V as (V & _). apply some_true in V. replace (0 <? c_nv c) with true in V by lia. destruct (c_vertices c); [reflexivity|discriminate].
        * congruence.
        * rewrite S1. eapply ttv_len; eauto.
        * intros i v E. rewrite S2. eapply ttv_range; eauto.
        * rewrite S7, S8. revert VA. unfold conn_is_valid. intros V. apply with_true in V as (a & _ & V). apply with_true in V as (b & _ & V).
          do 5 apply andthen_true in V as (_ & V). apply andthen_true in V as (V & _). apply some_true in V. exact V.
  Qed.
End Whole.
