(** * The ranks added for one face, edge or corner of a leaf *)

From Coq Require Import ZArith List Bool Lia ZifyBool.
From Verif Require Import Quad Spec Morton ZBits Interval QuadLemmas CompareLemmas DescLemmas SearchLocal Neighbor RangeBound RangeBoundLemmas PropertiesNeighbor Transform PropertiesTransform
  Conn Partition PartLemmas Comm OwnerLemmas Ghost GhostSpec GhostGeom GhostOut GhostState GhostTest.
Import ListNotations.
Open Scope Z_scope.

Lemma vflip_face f : 0 <= f < 6 -> face_obj (Z.lxor f 1) = vflip (face_obj f) /\ 0 <= Z.lxor f 1 < 6 /\ (f < 4 -> Z.lxor f 1 < 4).
Proof.
  intros Hf. assert (f = 0 \/ f = 1 \/ f = 2 \/ f = 3 \/ f = 4 \/ f = 5) as C by lia.
  destruct C as [->|[->|[->|[->|[->| ->]]]]]; (split; [reflexivity|]); cbn; lia.
Qed.
Lemma vflip_edge e : 0 <= e < 12 -> edge_obj (Z.lxor e 3) = vflip (edge_obj e) /\ 0 <= Z.lxor e 3 < 12.
Proof.
  intros He. assert (e = 0 \/ e = 1 \/ e = 2 \/ e = 3 \/ e = 4 \/ e = 5 \/ e = 6 \/ e = 7 \/ e = 8 \/ e = 9 \/ e = 10 \/ e = 11) as C by lia.
  destruct C as [->|[->|[->|[->|[->|[->|[->|[->|[->|[->|[->| ->]]]]]]]]]]]; (split; [reflexivity|]); cbn; lia.
Qed.
Lemma bit_face d f : 0 <= f < faces d -> bit_obj d f = face_obj f /\ 0 <= f < nbits d.
Proof. intros Hf. destruct d; cbn [faces bit_obj nbits] in *; [replace (f <? 4) with true by lia|replace (f <? 6) with true by lia]; split; auto; lia. Qed.
Lemma bit_edge e : 0 <= e < 12 -> bit_obj D3 (6 + e) = edge_obj e /\ 0 <= 6 + e < nbits D3.
Proof.
  intros He. unfold bit_obj, nbits. replace (6 + e <? 6) with false by lia. replace (6 + e <? 18) with true by lia. replace (6 + e - 6) with e by lia. split; [reflexivity|lia].
Qed.
Lemma obj_D2_face d f : 0 <= f < faces d -> d = D2 -> og (face_obj f) 2 = None.
Proof. intros Hf ->. cbn [faces] in Hf. rewrite og_face by lia. destruct (2 =? f / 2) eqn:E; [|reflexivity]. exfalso. assert (f / 2 < 2) by (apply Z.div_lt_upper_bound; lia). lia. Qed.

(** the face of the tree that the edge neighbor is beyond *)
Lemma edge_sel n e : 0 <= e < 12 -> (forall i, axis D3 i -> og (out D3 n) i = None \/ og (out D3 n) i = og (edge_obj e) i) -> dirs (out D3 n) = 1 ->
  let face := if outside_ax (qx n) then edge_faces e 0 else if outside_ax (qz n) then edge_faces e 1 else if qy n <? 0 then 2 else 3 in
  out D3 n = face_obj face /\ 0 <= face < 6 /\ edge_at_face e face = true.
Proof.
  intros He H D. cbv zeta. rewrite (all_axes D3 (fun i => og (out D3 n) i = None \/ og (out D3 n) i = og (edge_obj e) i)) in H.
  rewrite !outside_ax_iff. unfold out in *. cbn [og] in H.
  change (og (out_axis (qx n), out_axis (qy n), out_axis (qz n)) 0) with (out_axis (qx n)) in H.
  change (og (out_axis (qx n), out_axis (qy n), out_axis (qz n)) 1) with (out_axis (qy n)) in H.
  change (og (out_axis (qx n), out_axis (qy n), out_axis (qz n)) 2) with (out_axis (qz n)) in H.
  assert (Y : qy n <? 0 = match out_axis (qy n) with Some false => true | _ => false end).
  { unfold out_axis. destruct (qy n <? 0); [reflexivity|]. destruct (2 ^ 30 <=? qy n); reflexivity. }
  rewrite Y. clear Y. set (a := out_axis (qx n)) in *. set (b := out_axis (qy n)) in *. set (c := out_axis (qz n)) in *. clearbody a b c.
  assert (e = 0 \/ e = 1 \/ e = 2 \/ e = 3 \/ e = 4 \/ e = 5 \/ e = 6 \/ e = 7 \/ e = 8 \/ e = 9 \/ e = 10 \/ e = 11) as C by lia.
  destruct a as [[]|], b as [[]|], c as [[]|]; try discriminate D;
    destruct C as [->|[->|[->|[->|[->|[->|[->|[->|[->|[->|[->| ->]]]]]]]]]]]; vm_compute in H;
    (exfalso; destruct H as ([|] & [|] & [|]); congruence) || (split; [reflexivity|]; split; [vm_compute; split; congruence|reflexivity]).
Qed.

Lemma corner_sel d s k : 0 <= k < children d -> (forall i, axis d i -> og (out d s) i = None \/ og (out d s) i = og (corner_obj d k) i) ->
  (dirs (out d s) = 1 ->
   let face := if outside_ax (qx s) then corner_faces d k 0 else if is3 d && outside_ax (qy s) then corner_faces d k 1 else corner_faces d k (dimz d - 1) in
   out d s = face_obj face /\ 0 <= face < faces d /\ In face (map (corner_faces d k) (match d with D2 => [0; 1] | D3 => [0; 1; 2] end))) /\
  (dirs (out d s) <> 0 -> dirs (out d s) <> 1 -> match (if is3 d then outside_edge_extra s else None) with
     | Some e => d = D3 /\ 0 <= e < 12 /\ out d s = edge_obj e | None => out d s = corner_obj d k end).
Proof.
  intros Hk H. rewrite (all_axes d (fun i => og (out d s) i = None \/ og (out d s) i = og (corner_obj d k) i)) in H.
  cbv zeta. unfold outside_edge_extra. rewrite !outside_ax_iff. unfold out in *.
  assert (HI : forall a, b2z (a >=? ROOT_LEN) = match out_axis a with Some true => 1 | _ => 0 end).
  { intros a. unfold out_axis. change ROOT_LEN with (2 ^ 30). rewrite Z.geb_leb. destruct (a <? 0) eqn:E1; [replace (2 ^ 30 <=? a) with false by lia; reflexivity|]. destruct (2 ^ 30 <=? a); reflexivity. }
  rewrite !HI. clear HI. set (a := out_axis (qx s)) in *. set (b := out_axis (qy s)) in *. set (c := out_axis (qz s)) in *. clearbody a b c.
  destruct d; cbn [is3 andb children] in *.
  - assert (k = 0 \/ k = 1 \/ k = 2 \/ k = 3) as C by lia. clear Hk.
    destruct a as [[]|], b as [[]|]; destruct C as [->|[->|[->| ->]]]; vm_compute in H;
    (exfalso; destruct H as ([|] & [|] & _); congruence) || (split; [intros D; first [discriminate D|split; [reflexivity|]; split; [vm_compute; split; congruence|vm_compute; tauto]]|intros E1 E2; first [destruct (E1 eq_refl)|destruct (E2 eq_refl)|reflexivity]]).
  - assert (k = 0 \/ k = 1 \/ k = 2 \/ k = 3 \/ k = 4 \/ k = 5 \/ k = 6 \/ k = 7) as C by (change (children D3) with 8 in Hk; lia). clear Hk.
    destruct a as [[]|], b as [[]|], c as [[]|]; destruct C as [->|[->|[->|[->|[->|[->|[->| ->]]]]]]]; vm_compute in H;
    (exfalso; destruct H as ([|] & [|] & [|]); congruence) || (split; [intros D; first [discriminate D|split; [reflexivity|]; split; [vm_compute; split; congruence|vm_compute; tauto]]|
      intros E1 E2; first [destruct (E1 eq_refl)|destruct (E2 eq_refl)|vm_compute; reflexivity|vm_compute; split; [reflexivity|]; split; [split; congruence|reflexivity]]]).
Qed.

Lemma te_cells3 d n e ne fl s' : d = D3 -> 0 <= e < 12 -> 0 <= ne < 12 -> ext d n -> 0 <= vget (cv n) (e / 4) < 2 ^ 30 -> wf d s' -> ql s' = 29 ->
  (inbox d (transform_edge n e ne fl) s' /\ touches d (transform_edge n e ne fl) s' (edge_obj ne) <->
   exists s, ext d s /\ ql s = 29 /\ inbox d n s /\ touches d n s (vflip (edge_obj e)) /\ s' = transform_edge s e ne fl).
Proof. intros ->. apply te_cells. Qed.
Lemma te_wf3 d s e ne fl : d = D3 -> 0 <= e < 12 -> 0 <= ne < 12 -> ext d s -> 0 <= vget (cv s) (e / 4) < 2 ^ 30 -> wf d (transform_edge s e ne fl).
Proof. intros ->. apply te_wf. Qed.
Lemma out_along d s e : d = D3 -> 0 <= e < 12 -> out d s = edge_obj e -> 0 <= vget (cv s) (e / 4) < 2 ^ 30.
Proof.
  intros -> He O. assert (A4 : axis D3 (e / 4)).
  { unfold axis. cbn [nd]. split; [apply Z.div_pos; lia|apply Z.div_lt_upper_bound; lia]. }
  apply out_axis_none. rewrite <- (og_out D3 s (e / 4) A4), O. apply og_edge; auto.
Qed.
Lemma bit_edge3 d e : d = D3 -> 0 <= e < 12 -> bit_obj d (6 + e) = edge_obj e /\ 0 <= 6 + e < nbits d.
Proof. intros ->. apply bit_edge. Qed.

Lemma edge_nb3 d q e : d = D3 -> ext d q -> 0 <= e < 12 -> edge_neighbor q e = nb d q (edge_obj e).
Proof. intros ->. apply edge_nb. Qed.

Section Steps.
  Variables (d : dim) (c : conn) (gfp : list marker) (P T rank t num : Z) (q : quad) (m0 : mir).
  Hypothesis HP : 1 <= P.
  Hypothesis Hlen : zlen gfp = P + 1.
  Hypothesis Hwf : forall p m, zget gfp p = Some m -> wf d (g_quad m) /\ ql (g_quad m) = 29.
  Hypothesis Hin : Forall (fun m => qin d (g_quad m)) gfp.
  Hypothesis Hmono : forall p, 0 <= p < P -> mp d gfp p <= mp d gfp (p + 1).
  Hypothesis Hbeg : mp d gfp 0 = 0.
  Hypothesis Hend : mp d gfp P = T * TREE d.
  Hypothesis Hone : forall p, 0 <= p < P -> mp d gfp (p + 1) <> mp d gfp p + psize d 29.
  Hypothesis Hrank : 0 <= rank < P.
  Hypothesis Hm : good d P t q m0.
  Hypothesis Wq : wf d q.
  Hypothesis Ht : 0 <= t < T.
  Hypothesis HF : forall f, 0 <= f < faces d -> find_face_transform d c t f = Some None \/
    exists nt nf o, find_face_transform d c t f = Some (Some (nt, expand_face_transform d f nf o)) /\ 0 <= nt < T /\ 0 <= nf < faces d /\ 0 <= o < half d /\
      zget (c_ttf c) (t * faces d + f) = Some (nf + faces d * o).
  Hypothesis HE : d = D3 -> forall e, 0 <= e < 12 -> exists ets, find_edge_transform c t e = Some ets /\ forall nt ne fl, In (nt, ne, fl) ets -> 0 <= nt < T /\ 0 <= ne < 12.
  Hypothesis HC : forall k, 0 <= k < children d -> exists cts, find_corner_transform d c t k = Some cts /\ forall nt nc, In (nt, nc) cts -> 0 <= nt < T /\ 0 <= nc < children d.

  Definition via (v : obj) (p : Z) : Prop := 0 <= p < P /\ p <> rank /\
    exists s nt s', beside d q v s /\ seen_as d c t s nt s' /\ owns d gfp p nt s'.

  Lemma eq_ext : ext d q. Proof. apply wf_ext in Wq. apply Wq. Qed.

  Lemma inside_case v i p : (d = D2 -> og v 2 = None) -> out d (nb d q v) = (None, None, None) -> bit_obj d i = vflip v ->
    (at_obj d gfp P rank (nb d q v) t i p <-> via v p).
  Proof.
    intros HV O B. pose proof (ext_nb d q v eq_ext) as En. pose proof (proj1 (out_none d _ En) O) as Wn.
    unfold at_obj, via. rewrite B. split; intros (Hp & N & K); (split; [exact Hp|]); (split; [exact N|]).
    - destruct K as (s & Ws & Ls & I & TT & OW). exists s, t, s. pose proof (proj1 (proj1 (wf_ext d s) Ws)) as Es.
      assert (IB : inbox d (nb d q v) s) by (apply inbox_within; auto).
      split; [apply (beside_iff d q v s eq_ext HV); auto|]. split; [|exact OW]. apply seen_in; [|auto]. rewrite <- (inbox_out d _ s En Es IB). exact O.
    - destruct K as (s & nt & s' & BS & SN & OW). apply (beside_iff d q v s eq_ext HV) in BS. destruct BS as (Es & Ls & IB & TT).
      apply seen_in in SN; [|rewrite <- (inbox_out d _ s En Es IB); exact O]. destruct SN as (-> & ->).
      pose proof (inbox_wf d _ s Wn Es IB) as Ws. exists s. split; [exact Ws|]. split; [exact Ls|]. split; [apply inbox_within; auto|]. auto.
  Qed.

  Lemma none_case v f p : (d = D2 -> og v 2 = None) -> 0 <= f < faces d -> out d (nb d q v) = face_obj f -> find_face_transform d c t f = Some None -> ~ via v p.
  Proof.
    intros HV Hf O FN (_ & _ & s & nt & s' & BS & SN & _). pose proof (ext_nb d q v eq_ext) as En.
    apply (beside_iff d q v s eq_ext HV) in BS. destruct BS as (Es & Ls & IB & TT).
    apply (seen_face d c t nt s s' f Hf) in SN; [|rewrite <- (inbox_out d _ s En Es IB); exact O]. destruct SN as (ft & E & _). congruence.
  Qed.

  Lemma nb_beyond v f : 0 <= f < faces d -> out d (nb d q v) = face_obj f -> beyond d f (nb d q v).
  Proof. intros Hf O. apply out_beyond; [exact Hf|apply ext_nb; exact eq_ext| |exact O]. intros i A. apply (nb_out d q v i Wq A). Qed.

  Lemma face_case v f nt nf o i p : (d = D2 -> og v 2 = None) -> 0 <= f < faces d -> 0 <= nf < faces d -> 0 <= o < half d ->
    out d (nb d q v) = face_obj f -> find_face_transform d c t f = Some (Some (nt, expand_face_transform d f nf o)) ->
    bit_obj d i = omap d (expand_face_transform d f nf o) (vflip v) ->
    (at_obj d gfp P rank (transform_face d (nb d q v) (expand_face_transform d f nf o)) nt i p <-> via v p).
  Proof.
    intros HV Hf Hn Ho O FF B. pose proof (ext_nb d q v eq_ext) as En. pose proof (nb_beyond v f Hf O) as BN.
    assert (Wn : wf d (transform_face d (nb d q v) (expand_face_transform d f nf o))) by (apply tf_wf; auto).
    unfold at_obj, via. rewrite B. split; intros (Hp & N & K); (split; [exact Hp|]); (split; [exact N|]).
    - destruct K as (s' & Ws & Ls & I & TT & OW). apply inbox_within in I; auto.
      destruct (proj1 (tf_cells d f nf o Hf Hn Ho (nb d q v) (vflip v) s' BN Ws Ls) (conj I TT)) as (s & Es & L & IB & TS & ES).
      exists s, nt, s'. split; [apply (beside_iff d q v s eq_ext HV); auto|]. split; [|exact OW].
      apply (seen_face d c t nt s s' f Hf); [rewrite <- (inbox_out d _ s En Es IB); exact O|]. eauto.
    - destruct K as (s & nt' & s' & BS & SN & OW). apply (beside_iff d q v s eq_ext HV) in BS. destruct BS as (Es & Ls & IB & TT).
      apply (seen_face d c t nt' s s' f Hf) in SN; [|rewrite <- (inbox_out d _ s En Es IB); exact O]. destruct SN as (ft & E & ES).
      rewrite FF in E. injection E as <- <-. assert (Ws : wf d s') by (rewrite ES; apply tf_wf; auto; apply (inbox_beyond d f (nb d q v)); auto).
      assert (L' : ql s' = 29) by (rewrite ES; exact Ls).
      destruct (proj2 (tf_cells d f nf o Hf Hn Ho (nb d q v) (vflip v) s' BN Ws L')) as (I & TS); [exists s; auto|].
      exists s'. split; [exact Ws|]. split; [exact L'|]. split; [apply inbox_within; auto|]. auto.
  Qed.

  Lemma edge_case e ets p : d = D3 -> 0 <= e < 12 -> out d (nb d q (edge_obj e)) = edge_obj e -> find_edge_transform c t e = Some ets ->
    (forall nt ne fl, In (nt, ne, fl) ets -> 0 <= nt < T /\ 0 <= ne < 12) ->
    ((exists x, In x ets /\ let '(nt, ne, fl) := x in at_obj d gfp P rank (transform_edge (nb d q (edge_obj e)) e ne fl) nt (6 + ne) p) <-> via (edge_obj e) p).
  Proof.
    intros E3 He O FE RE. pose proof (ext_nb d q (edge_obj e) eq_ext) as En. set (n := nb d q (edge_obj e)) in *.
    assert (HV : d = D2 -> og (edge_obj e) 2 = None) by (rewrite E3; discriminate).
    pose proof (out_along d n e E3 He O) as R.
    unfold at_obj, via. split.
    - intros (((nt, ne), fl) & I & (Hp & N & s' & Ws & Ls & WI & TT & OW)). destruct (RE nt ne fl I) as (Rt & Rn).
      split; [exact Hp|]. split; [exact N|]. destruct (bit_edge3 d ne E3 Rn) as (B & _). rewrite B in TT.
      assert (Wn : wf d (transform_edge n e ne fl)) by (apply te_wf3; auto).
      apply inbox_within in WI; auto.
      destruct (proj1 (te_cells3 d n e ne fl s' E3 He Rn En R Ws Ls) (conj WI TT)) as (s & Es & L & IB & TS & ES).
      exists s, nt, s'. split; [apply (beside_iff d q _ s eq_ext HV); auto|]. split; [|exact OW].
      apply (seen_edge d c t nt s s' e E3 He); [rewrite <- (inbox_out d _ s En Es IB); exact O|]. exists ets, ne, fl. auto.
    - intros (Hp & N & s & nt & s' & BS & SN & OW). apply (beside_iff d q _ s eq_ext HV) in BS. destruct BS as (Es & Ls & IB & TT).
      assert (OS : out d s = edge_obj e) by (rewrite <- (inbox_out d _ s En Es IB); exact O).
      apply (seen_edge d c t nt s s' e E3 He OS) in SN. destruct SN as (ets' & ne & fl & E & I & ES).
      rewrite FE in E. injection E as <-. exists (nt, ne, fl). split; [exact I|]. destruct (RE nt ne fl I) as (Rt & Rn).
      split; [exact Hp|]. split; [exact N|]. destruct (bit_edge3 d ne E3 Rn) as (B & _). rewrite B.
      assert (Wn : wf d (transform_edge n e ne fl)) by (apply te_wf3; auto).
      assert (Ws : wf d s') by (rewrite ES; apply te_wf3; auto; apply (out_along d s e E3 He OS)).
      assert (L' : ql s' = 29) by (rewrite ES; exact Ls).
      destruct (proj2 (te_cells3 d n e ne fl s' E3 He Rn En R Ws L')) as (I' & TS); [exists s; auto|].
      exists s'. split; [exact Ws|]. split; [exact L'|]. split; [apply inbox_within; auto|]. auto.
  Qed.

  Local Notation ADDS := (adds P t num q m0).
  Local Notation TEST := (test_spec d gfp P T rank t num q m0 HP Hlen Hwf Hin Hmono Hbeg Hend Hone Hrank Hm).

  Lemma nb_level v : ql (nb d q v) = ql q.
  Proof. destruct v as ((a, b), e). reflexivity. Qed.

  Lemma face_step_spec f : 0 <= f < faces d -> ADDS (fun m => face_step d c gfp P rank t num q m f) (via (face_obj f)).
  Proof.
    intros Hf. pose proof eq_ext as Eq. unfold face_step. rewrite (face_nb d q f Eq Hf). pose proof (ext_nb d q (face_obj f) Eq) as En.
    rewrite (inside_iff d _ En). assert (HV := obj_D2_face d f Hf).
    assert (F6 : 0 <= f < 6) by (destruct d; cbn [faces] in Hf; lia). destruct (vflip_face f F6) as (VF & R6 & R4).
    destruct (oeqb (out d (nb d q (face_obj f))) (None, None, None)) eqn:EO.
    - apply oeqb_eq in EO. destruct (bit_face d (Z.lxor f 1)) as (B & RB); [destruct d; cbn [faces] in *; lia|].
      eapply adds_ext; [|apply TEST; [apply (out_none d _ En); exact EO|apply nb_level|exact Ht|exact RB]].
      intros p. apply inside_case; auto. rewrite B. exact VF.
    - assert (O : out d (nb d q (face_obj f)) = face_obj f).
      { assert (E : out d (nb d q (face_obj f)) <> (None, None, None)) by (intros X; apply oeqb_eq in X; congruence).
        assert (AX : forall i, axis d i -> og (face_obj f) i = if i =? f / 2 then Some (Z.odd f) else None).
        { intros i A. apply og_face; [exact F6|]. unfold axis in A. destruct d; cbn [nd] in A; lia. }
        destruct (og (out d (nb d q (face_obj f))) (f / 2)) as [x|] eqn:OF.
        - apply (obj_ext d); [|intros E2; split; [apply out_D2; exact E2|apply HV; exact E2]]. intros i A. destruct (nb_out d q (face_obj f) i Wq A) as (N1 & _ & N2).
          destruct (Z.eq_dec i (f / 2)) as [->|NI]; [destruct N1; congruence|]. rewrite N2; rewrite AX by exact A; replace (i =? f / 2) with false by lia; reflexivity.
        - exfalso. apply E. apply (obj_ext d); [|intros ->; split; reflexivity]. intros i A. destruct (nb_out d q (face_obj f) i Wq A) as (N1 & _ & N2).
          assert (NN : og (None, None, None) i = None) by (unfold og; destruct (i =? 0), (i =? 1); reflexivity). rewrite NN.
          destruct (Z.eq_dec i (f / 2)) as [->|NI]; [exact OF|]. apply N2. rewrite AX by exact A. replace (i =? f / 2) with false by lia. reflexivity. }
      destruct (HF f Hf) as [FN|(nt & nf & o & FF & Rt & Rf & Ro & EC)].
      + rewrite FN. apply adds_none. intros p. apply (none_case (face_obj f) f p HV Hf O FN).
      + rewrite FF, EC. replace ((nf + faces d * o) mod faces d) with nf.
        2:{ rewrite Z.mul_comm, Z_mod_plus_full. symmetry. apply Z.mod_small. exact Rf. }
        destruct (bit_face d nf Rf) as (B & RB).
        eapply adds_ext; [|apply TEST; [apply tf_wf; auto; apply nb_beyond; auto|rewrite (tf_level d f nf o); apply nb_level|exact Rt|exact RB]].
        intros p. apply face_case; auto. rewrite B. symmetry. apply face_omap; auto.
  Qed.

  Lemma edge_step_spec e : d = D3 -> 0 <= e < 12 -> ADDS (fun m => edge_step d c gfp P rank t num q m e) (via (edge_obj e)).
  Proof.
    intros E3 He. pose proof eq_ext as Eq. unfold edge_step. rewrite (edge_nb3 d q e E3 Eq He). pose proof (ext_nb d q (edge_obj e) Eq) as En. set (n := nb d q (edge_obj e)) in *.
    assert (HV : d = D2 -> og (edge_obj e) 2 = None) by (rewrite E3; discriminate).
    rewrite (inside_iff d _ En). destruct (oeqb (out d n) (None, None, None)) eqn:EO.
    - apply oeqb_eq in EO. destruct (vflip_edge e He) as (VF & RV). destruct (bit_edge3 d (Z.lxor e 3) E3 RV) as (B & RB).
      eapply adds_ext; [|apply TEST; [apply (out_none d _ En); exact EO|apply nb_level|exact Ht|exact RB]].
      intros p. apply inside_case; auto. rewrite B. exact VF.
    - assert (E : out d n <> (None, None, None)) by (intros X; apply oeqb_eq in X; congruence).
      assert (N1 : forall i, axis D3 i -> og (out D3 n) i = None \/ og (out D3 n) i = og (edge_obj e) i).
      { intros i A. rewrite <- E3 in A |- *. apply (nb_out d q (edge_obj e) i Wq A). }
      rewrite (outside_face_iff d n). destruct (dirs (out d n) =? 1) eqn:ED.
      + assert (D1 : dirs (out D3 n) = 1) by (rewrite <- E3; lia). destruct (edge_sel n e He N1 D1) as (O & R6 & EF). rewrite <- E3 in O.
        set (f := if outside_ax (qx n) then edge_faces e 0 else if outside_ax (qz n) then edge_faces e 1 else if qy n <? 0 then 2 else 3) in *.
        assert (Hf : 0 <= f < faces d) by (rewrite E3; exact R6).
        destruct (HF f Hf) as [FN|(nt & nf & o & FF & Rt & Rf & Ro & EC)].
        * rewrite FN. apply adds_none. intros p. apply (none_case (edge_obj e) f p HV Hf O FN).
        * rewrite FF, EC. assert (Rf3 : 0 <= nf < 6) by (rewrite E3 in Rf; exact Rf). assert (Ro3 : 0 <= o < 4) by (rewrite E3 in Ro; exact Ro).
          replace (faces d) with 6 by (rewrite E3; reflexivity). destruct (edge_omap e f nf o He R6 Rf3 Ro3 EF) as (OM & RA).
          destruct (bit_edge3 d _ E3 RA) as (B & RB).
          eapply adds_ext; [|apply TEST; [apply tf_wf; auto; apply nb_beyond; auto|rewrite (tf_level d f nf o); apply nb_level|exact Rt|exact RB]].
          intros p. apply face_case; auto. rewrite B, <- OM. rewrite E3. reflexivity.
      + assert (O : out d n = edge_obj e).
        { rewrite E3 in E, ED |- *. rewrite (all_axes D3 (fun i => og (out D3 n) i = None \/ og (out D3 n) i = og (edge_obj e) i)) in N1.
          clear - E ED N1 He. destruct (out D3 n) as ((a, b), x).
          assert (e = 0 \/ e = 1 \/ e = 2 \/ e = 3 \/ e = 4 \/ e = 5 \/ e = 6 \/ e = 7 \/ e = 8 \/ e = 9 \/ e = 10 \/ e = 11) as C by lia.
          change (og (a, b, x) 0) with a in N1. change (og (a, b, x) 1) with b in N1. change (og (a, b, x) 2) with x in N1.
          destruct N1 as ([->| ->] & [->| ->] & [->| ->]); try (destruct (E eq_refl));
            destruct C as [->|[->|[->|[->|[->|[->|[->|[->|[->|[->|[->| ->]]]]]]]]]]]; vm_compute in ED; try discriminate ED; try (destruct (E eq_refl)); reflexivity. }
        destruct (HE E3 e He) as (ets & FE & RE). rewrite FE.
        eapply adds_ext; [|apply (adds_each P t num q m0 _ (fun x => let '(nt, ne, fl) := x in at_obj d gfp P rank (transform_edge n e ne fl) nt (6 + ne)) ets)].
        * intros p. rewrite <- (edge_case e ets p E3 He O FE RE). fold n. split; intros (((nt, ne), fl) & A); exists (nt, ne, fl); exact A.
        * intros ((nt, ne), fl) I. destruct (RE nt ne fl I) as (Rt & Rn). destruct (bit_edge3 d ne E3 Rn) as (_ & RB).
          apply TEST; [apply te_wf3; auto; apply (out_along d n e E3 He O)|rewrite te_level; apply nb_level|exact Rt|exact RB].
  Qed.

  Lemma corner_add_spec nt s : wf d s -> 0 <= nt < T ->
    ADDS (fun m => corner_add d gfp P rank t num q m nt s) (fun p => 0 <= p < P /\ p <> rank /\ owns d gfp p nt s).
  Proof.
    intros Ws Hnt. unfold corner_add. destruct (owner d gfp P T HP Hlen Hin Hbeg Hend nt s rank Ws Hnt Hrank) as (p0 & -> & Hp0 & O).
    eapply adds_ext; [|apply adds_other; [exact Hm|exact Hp0]]. intros p. cbn beta. split.
    - intros (-> & N). auto.
    - intros (Hp & N & O'). split; [|exact N]. apply (owner_eq d gfp P Hmono nt s); auto.
  Qed.

  Lemma corner_step_spec k : 0 <= k < children d -> ADDS (fun m => corner_step d c gfp P rank t num q m k) (via (corner_obj d k)).
  Proof.
    intros Hk. pose proof eq_ext as Eq. unfold corner_step. set (s := corner_neighbor d (corner_descendant d q k QMAXLEVEL) k).
    assert (HV : d = D2 -> og (corner_obj d k) 2 = None) by (intros ->; reflexivity).
    assert (BS : beside d q (corner_obj d k) s) by (apply corner_cell; auto).
    pose proof (proj1 (beside_iff d q _ s Eq HV) BS) as (Es & Ls & IB & _). pose proof (ext_nb d q (corner_obj d k) Eq) as En.
    pose proof (inbox_out d _ s En Es IB) as OO.
    assert (VIA : forall p, via (corner_obj d k) p <-> 0 <= p < P /\ p <> rank /\ exists nt s', seen_as d c t s nt s' /\ owns d gfp p nt s').
    { intros p. unfold via. split; intros (Hp & N & K); (split; [exact Hp|]); (split; [exact N|]).
      - destruct K as (s0 & nt & s' & B0 & SN & OW). apply corner_cell in B0; auto. rewrite B0 in SN. fold s in SN. eauto.
      - destruct K as (nt & s' & SN & OW). exists s, nt, s'. auto. }
    assert (N1 : forall i, axis d i -> og (out d s) i = None \/ og (out d s) i = og (corner_obj d k) i).
    { intros i A. rewrite <- OO. apply (nb_out d q (corner_obj d k) i Wq A). }
    assert (R1 : forall i, axis d i -> - 2 ^ 30 <= vget (cv s) i < 2 ^ 31).
    { intros i A. specialize (IB i A). destruct (nb_out d q (corner_obj d k) i Wq A) as (_ & RR & _). rewrite Ls in IB. change (side 29) with 2 in IB.
      apply ext_comp in En. destruct En as (L & Dv & _).
      pose proof (mul_up (ql (nb d q (corner_obj d k))) _ (2 ^ 31) ltac:(lia) (Dv i A) ltac:(tauto) ltac:(apply RR)). clear - H RR IB. lia. }
    destruct (corner_sel d s k Hk N1) as (SEL1 & SEL2). rewrite (inside_iff d s Es).
    destruct (oeqb (out d s) (None, None, None)) eqn:EO.
    { apply oeqb_eq in EO. eapply adds_ext; [|apply corner_add_spec; [apply (out_none d s Es); exact EO|exact Ht]].
      intros p. rewrite VIA. split; intros (Hp & N & K); (split; [exact Hp|]); (split; [exact N|]).
      - exists t, s. split; [apply seen_in; auto|exact K].
      - destruct K as (nt & s' & SN & OW). apply seen_in in SN; auto. destruct SN as (-> & ->). exact OW. }
    assert (D0 : dirs (out d s) <> 0).
    { intros X. assert (out d s = (None, None, None)); [|rewrite (proj2 (oeqb_eq _ _) H) in EO; discriminate].
      destruct (out d s) as ((a, b), x). destruct a, b, x; cbn in X; try discriminate X; reflexivity. }
    rewrite (outside_face_iff d s). destruct (dirs (out d s) =? 1) eqn:ED.
    - specialize (SEL1 ltac:(lia)). cbv zeta in SEL1. destruct SEL1 as (O & Hf & _).
      set (f := if outside_ax (qx s) then corner_faces d k 0 else if is3 d && outside_ax (qy s) then corner_faces d k 1 else corner_faces d k (dimz d - 1)) in *.
      destruct (HF f Hf) as [FN|(nt & nf & o & FF & Rt & Rf & Ro & EC)].
      + rewrite FN. apply adds_none. intros p V. apply VIA in V. destruct V as (_ & _ & nt & s' & SN & _). apply (seen_face d c t nt s s' f Hf O) in SN. destruct SN as (ft & E & _). congruence.
      + rewrite FF. eapply adds_ext; [|apply corner_add_spec; [apply tf_wf; auto; apply out_beyond; auto|exact Rt]].
        intros p. rewrite VIA. split; intros (Hp & N & K); (split; [exact Hp|]); (split; [exact N|]).
        * eexists nt, _. split; [apply (seen_face d c t nt s _ f Hf O); eauto|exact K].
        * destruct K as (nt' & s' & SN & OW). apply (seen_face d c t nt' s s' f Hf O) in SN. destruct SN as (ft & E & ->). rewrite FF in E. injection E as <- <-. exact OW.
    - specialize (SEL2 D0 ltac:(lia)). destruct (if is3 d then outside_edge_extra s else None) as [e|].
      + destruct SEL2 as (E3 & He & O). destruct (HE E3 e He) as (ets & FE & RE). rewrite FE.
        eapply adds_ext; [|apply (adds_each P t num q m0 _ (fun x => let '(nt, ne, fl) := x in fun p => 0 <= p < P /\ p <> rank /\ owns d gfp p nt (transform_edge s e ne fl)) ets)].
        * intros p. rewrite VIA. split.
          -- intros (((nt, ne), fl) & I & (Hp & N & OW)). split; [exact Hp|]. split; [exact N|]. eexists nt, _. split; [apply (seen_edge d c t nt s _ e E3 He O); eauto 6|exact OW].
          -- intros (Hp & N & nt & s' & SN & OW). apply (seen_edge d c t nt s s' e E3 He O) in SN. destruct SN as (ets' & ne & fl & E & I & ->). rewrite FE in E. injection E as <-.
             exists (nt, ne, fl). split; [exact I|]. auto.
        * intros ((nt, ne), fl) I. destruct (RE nt ne fl I) as (Rt & Rn). apply corner_add_spec; [|exact Rt]. apply te_wf3; auto. apply (out_along d s e E3 He O).
      + rename SEL2 into O. destruct (HC k Hk) as (cts & FC & RC). rewrite FC.
        eapply adds_ext; [|apply (adds_each P t num q m0 _ (fun x p => 0 <= p < P /\ p <> rank /\ owns d gfp p (fst x) (transform_corner d s (snd x) true)) cts)].
        * intros p. rewrite VIA. split.
          -- intros ((nt, nc) & I & (Hp & N & OW)). split; [exact Hp|]. split; [exact N|]. eexists nt, _. split; [apply (seen_corner d c t nt s _ k Hk O); eauto 6|exact OW].
          -- intros (Hp & N & nt & s' & SN & OW). apply (seen_corner d c t nt s s' k Hk O) in SN. destruct SN as (cts' & nc & E & I & ->). rewrite FC in E. injection E as <-.
             exists (nt, nc). split; [exact I|]. auto.
        * intros (nt, nc) I. destruct (RC nt nc I) as (Rt & Rn). cbn [fst snd]. apply corner_add_spec; [|exact Rt]. apply tc_wf; auto.
  Qed.
End Steps.
